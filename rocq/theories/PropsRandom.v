(** PropsRandom.v: uniform and randn (C92); which integers randint can return, and randint for
    floating-point element types (C41). *)
From Coq Require Import List Arith Lia Lqa Bool ZArith QArith Qabs Floats.SpecFloat.
From Verif Require Import Base Spec SpecFacts Layout Views HeapFacts KernelFacts OpFacts Numeric NumericFacts PropsNumeric FloatErr Cast CastFacts PropsCast Random.
Import ListNotations.
Local Close Scope Q_scope. Local Close Scope nat_scope. Local Open Scope Z_scope.

(** x is a value of the floating-point type f *)
Definition float_of (f : fmt) (x : spec_float) : Prop := valid_binary (prec f) (emax f) x = true.

(** ** Comparisons are those of the rational numbers *)
Lemma sval_qval x : match sval x, qval x with
  | Some (m, e), Some q => (q == inject_Z m * 2 ^ e)%Q
  | None, None => True
  | _, _ => False
  end.
Proof. destruct x as [s|s| |s m e]; cbn [sval qval]; try exact I; [reflexivity|]. reflexivity. Qed.

Lemma vcmp_q x y a b : qval x = Some a -> qval y = Some b -> vcmp x y = Some (a ?= b)%Q.
Proof.
  intros QX QY. pose proof (sval_qval x) as SX. pose proof (sval_qval y) as SY. rewrite QX in SX. rewrite QY in SY. unfold vcmp.
  destruct (sval x) as [[m1 e1]|]; [|contradiction]. destruct (sval y) as [[m2 e2]|]; [|contradiction].
  f_equal. set (k := Z.min e1 e2).
  assert (E : forall m e, k <= e -> (inject_Z m * 2 ^ e == inject_Z (m * 2 ^ (e - k)) * 2 ^ k)%Q).
  { intros m e L. rewrite inject_Z_mult, two_Z by lia. rewrite <- Qmult_assoc, <- two_add. now replace (e - k + k) with e by lia. }
  rewrite SX, SY, (E m1 e1), (E m2 e2) by (unfold k; lia). pose proof (two_pos k) as P.
  set (A := m1 * 2 ^ (e1 - k)) in *. set (B := m2 * 2 ^ (e2 - k)) in *. clearbody A B. clear E SX SY.
  symmetry. destruct (Z.compare_spec A B) as [->|L|L].
  - now apply Qeq_alt.
  - apply -> Qlt_alt. apply Qmult_lt_r; [exact P|]. now rewrite <- Zlt_Qlt.
  - apply -> Qgt_alt. apply Qmult_lt_r; [exact P|]. now rewrite <- Zlt_Qlt.
Qed.

Lemma qval_finite x : is_finite x = true <-> exists q, qval x = Some q.
Proof. destruct x; cbn; split; intros H; try discriminate; try (destruct H; discriminate); eauto. Qed.

Lemma vltb_q x y : vltb x y = true <-> exists a b, qval x = Some a /\ qval y = Some b /\ (a < b)%Q.
Proof.
  split.
  - intros H. pose proof (sval_qval x) as SX. pose proof (sval_qval y) as SY.
    destruct (qval x) as [a|] eqn:QX, (qval y) as [b|] eqn:QY.
    1: { exists a, b. split; [reflexivity|]. split; [reflexivity|]. unfold vltb in H. rewrite (vcmp_q x y a b QX QY) in H. apply Qlt_alt. now destruct (a ?= b)%Q. }
    all: unfold vltb, vcmp in H; destruct (sval x) as [[]|], (sval y) as [[]|]; try contradiction; discriminate.
  - intros (a & b & QX & QY & L). unfold vltb. rewrite (vcmp_q x y a b QX QY). now rewrite (proj1 (Qlt_alt _ _) L).
Qed.
Lemma vleb_q x y a b : qval x = Some a -> qval y = Some b -> (vleb x y = true <-> (a <= b)%Q).
Proof. intros QX QY. unfold vleb. rewrite (vcmp_q x y a b QX QY). rewrite Qle_alt. destruct (a ?= b)%Q; split; intros; congruence. Qed.

Lemma drawn_q low high x l u : qval low = Some l -> qval high = Some u ->
  (drawn low high x = true <-> exists q, qval x = Some q /\ (l <= q < u)%Q).
Proof.
  intros QL QH. unfold drawn. rewrite andb_true_iff, vltb_q. split.
  - intros (A & q & u' & Q & Q' & L). exists q. split; [exact Q|]. rewrite QH in Q'. injection Q' as <-. split; [|exact L]. now apply (vleb_q low x).
  - intros (q & Q & A & L). split; [now apply (vleb_q low x l q)|]. exists q, u. auto.
Qed.

(** converting a float to its own type does nothing *)
Lemma convert_id f x q : std f -> float_of f x -> qval x = Some q -> convert f x = x.
Proof.
  intros S V Q. destruct (std_ok f S) as [Hp He]. destruct (convert_rounds f x q S Q) as [[V' E] _].
  destruct (round_rep_q x q f f S S ltac:(lia) ltac:(lia) V Q) as (A & k & B1 & B2 & B3).
  destruct (E A k B1 B2 B3) as (c & C1 & C2).
  { now apply (valid_abs (prec f) (emax f) Hp x). }
  eapply (qval_unique (prec f) (emax f) Hp); eauto. now apply convert_sign.
Qed.

(** ** C92: uniform *)
(** the result of a constructor: a new array with the given shape and elements; memory in use
    before is unchanged *)
Definition made {T} (h h' : heap T) (a : arr) (sh : list nat) (l : list T) : Prop :=
  a_shape a = sh /\ elems h' a = Ok l /\ a_blk a = length h /\
  (forall b o, (b < length h)%nat -> load h' b o = load h b o).

Lemma from_buffer_made {T} (h : heap T) sh (l : list T) : length l = prod sh ->
  let '(h', a) := from_buffer h sh l in made h h' a sh l.
Proof.
  intros L. unfold from_buffer, alloc. split; [reflexivity|]. split; [now apply fresh_elems|]. split; [reflexivity|].
  intros. now apply load_app_old.
Qed.

(** uniform with finite ends low < high, less than the largest float apart, returns the values
    drawn, which lie in [low, high). *)
Theorem C92_uniform : forall f (h : heap spec_float) sh low high samples l u,
  std f -> float_of f low -> float_of f high -> qval low = Some l -> qval high = Some u ->
  (l < u)%Q -> (u - l < huge (prec f) (emax f))%Q ->
  length samples = prod sh -> Forall (fun x => float_of f x /\ drawn low high x = true) samples ->
  exists h' a, nd_uniform f h sh low high samples = Ok (h', a) /\ made h h' a sh samples /\
    Forall (fun x => exists q, qval x = Some q /\ (l <= q < u)%Q) samples.
Proof.
  intros f h sh low high samples l u S VL VH QL QH LU R LEN FA. destruct (std_ok f S) as [Hp He].
  assert (FB : Forall (fun x => exists q, qval x = Some q /\ (l <= q < u)%Q) samples).
  { eapply Forall_impl; [|exact FA]. intros x [_ D]. now apply (drawn_q low high). }
  assert (ID : map (convert f) samples = samples).
  { rewrite <- (map_id samples) at 2. apply map_ext_in. intros x I. rewrite Forall_forall in FA, FB.
    destruct (FA x I) as [V _]. destruct (FB x I) as (q & Q & _). now apply (convert_id f x q). }
  unfold nd_uniform, uniform_new. rewrite ID. rewrite (proj2 (vltb_q low high)) by (exists l, u; auto). cbn [guard bind].
  assert (F : is_finite (fsub f high low) = true).
  { apply qval_finite. destruct (sub_q (prec f) (emax f) Hp He high low u l VH VL QH QL) as [_ [(c & C & _)|[_ H]]]; [exists c; exact C|].
    exfalso. rewrite Qabs_pos in H by lra. lra. }
  rewrite F. cbn [guard bind]. pose proof (from_buffer_made h sh samples LEN) as M.
  destruct (from_buffer h sh samples) as [h' a]. exists h', a. auto.
Qed.
Print Assumptions C92_uniform.

(** without finite ends in order it panics *)
Theorem C92_uniform_refuses : forall f (h : heap spec_float) sh low high samples,
  (forall l u, qval low = Some l -> qval high = Some u -> (u <= l)%Q) -> nd_uniform f h sh low high samples = Panic.
Proof.
  intros f h sh low high samples H. unfold nd_uniform, uniform_new. destruct (vltb low high) eqn:E; [|reflexivity].
  apply vltb_q in E as (l & u & QL & QH & L). specialize (H l u QL QH). exfalso. lra.
Qed.
Print Assumptions C92_uniform_refuses.

(** the largest f32 *)
Definition max32 : spec_float := S754_finite false 16777215 104.
(** both ends are finite floats, and everything between can be represented; the call panics *)
Example C92_wide_ex : float_of f32 max32 /\ float_of f32 (SFopp max32) /\ vltb (SFopp max32) max32 = true /\
  nd_uniform f32 [] [1%nat] (SFopp max32) max32 [S754_zero false] = Panic.
Proof. repeat split; vm_compute; reflexivity. Qed.
(** -5 .. 3, the example of the documentation *)
Example C92_uniform_ex : exists h' a,
  nd_uniform f64 [] [2%nat] (of_Z f64 (-5)) (of_Z f64 3) [of_Z f64 (-5); of_Z f64 2] = Ok (h', a) /\
  drawn (of_Z f64 (-5)) (of_Z f64 3) (of_Z f64 (-5)) = true /\ drawn (of_Z f64 (-5)) (of_Z f64 3) (of_Z f64 3) = false.
Proof. eexists _, _. split; [vm_compute; reflexivity|]. split; vm_compute; reflexivity. Qed.

(** ** C92: randn.  Whatever finite f64 values are drawn, the call returns, every element is the
    value drawn rounded to the element type with its sign, exactly that value for f64, and finite
    for f32 below the overflow threshold. *)
Theorem C92_randn : forall f (h : heap spec_float) sh samples,
  std f -> length samples = prod sh -> Forall (fun x => float_of f64 x /\ is_finite x = true) samples ->
  exists h' a l, nd_randn f h sh samples = Ok (h', a) /\ made h h' a sh l /\
    Forall2 (fun x y => sign_of y = sign_of x /\ exists q, qval x = Some q /\ rounds_f f q y /\
       ((Qabs q < huge (prec f) (emax f))%Q -> is_finite y = true)) samples l /\
    (f = f64 -> l = samples).
Proof.
  intros f h sh samples S LEN FA. unfold nd_randn.
  pose proof (from_buffer_made h sh (map (convert f) samples) ltac:(rewrite map_length; exact LEN)) as M.
  destruct (from_buffer h sh (map (convert f) samples)) as [h' a]. exists h', a, (map (convert f) samples).
  split; [reflexivity|]. split; [exact M|]. clear M LEN. split.
  - induction FA as [|x xs [V F] FA IH]; cbn [map]; constructor; [|exact IH].
    split; [now apply convert_sign|]. apply qval_finite in F as [q Q]. exists q. split; [exact Q|].
    pose proof (convert_rounds f x q S Q) as R. split; [exact R|]. intros B. apply qval_finite.
    destruct R as [_ [(c & C & _)|[_ H]]]; [exists c; exact C|]. exfalso. lra.
  - intros ->. rewrite <- (map_id samples) at 2. apply map_ext_in. intros x I. rewrite Forall_forall in FA.
    destruct (FA x I) as [V F]. apply qval_finite in F as [q Q]. now apply (convert_id f64 x q).
Qed.
Print Assumptions C92_randn.
(** 2^-30 + 1 is not an f32 *)
Example C92_randn_ex : let x := S754_finite false (2 ^ 52 + 2 ^ 22) (-52) in
  float_of f64 x /\ exists h' a, nd_randn f32 [] [1%nat] [x] = Ok (h', a) /\ elems h' a = Ok [of_Z f32 1].
Proof. split; [reflexivity|]. eexists _, _. split; vm_compute; reflexivity. Qed.

(** ** C41: which integers randint can return *)
(** a number of at most p bits is a float *)
Lemma float_value f v j s : std f -> 0 < v < 2 ^ prec f -> 0 <= j <= 2 ->
  exists m e, float_of f (S754_finite s m e) /\ e <= - j /\ Zpos m = v * 2 ^ (- j - e).
Proof.
  intros S B J. pose proof (std_bounds f S) as [P _]. assert (E2 : 128 <= emax f) by (destruct S as [-> | ->]; cbn; lia).
  pose proof (digits_le v (prec f) ltac:(lia) ltac:(lia) ltac:(lia)) as D.
  assert (D0 : 0 < Zdigits2 v) by (destruct (digits_bounds v ltac:(lia)); lia).
  set (k := prec f - Zdigits2 v). set (mz := v * 2 ^ k).
  assert (PM : 0 < mz) by (unfold mz; pose proof (pow2_pos k ltac:(unfold k; lia)); nia).
  exists (Z.to_pos mz), (- j - k). unfold float_of, valid_binary, bounded, canonical_mantissa.
  change (Zpos (digits2_pos (Z.to_pos mz))) with (Zdigits2 (Zpos (Z.to_pos mz))). rewrite Z2Pos.id by exact PM.
  assert (DM : Zdigits2 mz = prec f) by (unfold mz; rewrite digits_shift by (unfold k; lia); unfold k; lia). rewrite DM.
  split; [|split; [unfold k; lia|unfold mz; f_equal; f_equal; lia]].
  apply andb_true_iff. split; [|apply Z.leb_le; unfold k; lia]. apply Zeq_is_eq_bool. unfold fexp, emin, k. lia.
Qed.

Lemma float_small f x : std f -> float_of f x -> forall m e, sval x = Some (m, e) -> Z.abs m < 2 ^ prec f.
Proof.
  intros S V m e E. destruct (std_ok f S) as [Hp He]. destruct x as [s|s| |s mm ee]; cbn [sval] in E; try discriminate; injection E as <- <-.
  - apply (pow2_pos (prec f)). lia.
  - destruct (valid_digits _ _ Hp _ _ _ V) as (L & _). destruct s; exact L.
Qed.

Lemma rep_qval x v : rep x v -> exists q, qval x = Some q /\ (q == inject_Z v)%Q.
Proof.
  destruct x as [s|s| |s m e]; cbn [rep]; try tauto.
  - intros ->. exists 0%Q. split; reflexivity.
  - intros (N & -> & E & M). eexists. split; [reflexivity|].
    assert (X : (if v <? 0 then Zneg m else Zpos m) = v * 2 ^ (- e)).
    { destruct (Z.ltb_spec v 0); [change (Zneg m) with (- Zpos m)|]; rewrite M; [rewrite Z.abs_neq by lia|rewrite Z.abs_eq by lia]; lia. }
    rewrite X, inject_Z_mult, two_Z by lia. rewrite <- Qmult_assoc, <- two_add. replace (- e + e) with 0 by lia. change (2 ^ 0)%Q with 1%Q. ring.
Qed.

(** no float strictly below [high] rounds to it *)
Lemma no_round_up f x m e v high r : std f -> float_of f x -> sval x = Some (m, e) -> rep v high -> vltb x v = true ->
  2 ^ (prec f - 1) < high \/ high <= - 2 ^ (prec f - 2) -> round_Z x = Some r -> r <> high.
Proof.
  intros S V SX R L B E. pose proof (float_small f x S V m e SX) as M. pose proof (std_bounds f S) as [P _].
  pose proof (vcmp_lt_scaled v x high m e R SX L) as U. destruct (round_Z_scaled x m e SX) as (r' & E' & Q). rewrite E in E'. injection E' as <-.
  intros ->. destruct (Z.leb_spec 0 e) as [H|H]; [lia|].
  assert (P2 : 2 ^ prec f = 2 * 2 ^ (prec f - 1)) by (replace (prec f) with (1 + (prec f - 1)) at 1 by lia; rewrite pow2_split by lia; reflexivity).
  assert (P4 : 2 ^ prec f = 4 * 2 ^ (prec f - 2)) by (replace (prec f) with (2 + (prec f - 2)) at 1 by lia; rewrite pow2_split by lia; reflexivity).
  pose proof (pow2_pos (prec f - 2) ltac:(lia)) as PP.
  assert (K2 : 2 ^ (- e) = 2 * 2 ^ (- e - 1)) by (replace (- e) with (1 + (- e - 1)) at 1 by lia; rewrite pow2_split by lia; reflexivity).
  pose proof (pow2_pos (- e - 1) ltac:(lia)) as K1. destruct B as [B|B].
  - set (k := 2 ^ (- e)) in *. nia.
  - destruct (Z.eq_dec e (-1)) as [->|NE].
    + change (2 ^ (- -1)) with 2 in *. destruct x as [s|s| |s pm pe]; cbn [sval] in SX; try discriminate; injection SX as <- E1; subst pe.
      destruct s; cbv iota in *; [|lia]. cbn [round_Z] in E. change (0 <=? -1) with false in E. cbv iota in E. change (2 ^ (- -1)) with 2 in E.
      assert (DD : - ((Zpos pm * 2 + 2) / (2 * 2)) = high) by congruence.
      pose proof (Z.div_mod (Zpos pm * 2 + 2) (2 * 2) ltac:(lia)) as D. pose proof (Z.mod_pos_bound (Zpos pm * 2 + 2) (2 * 2) ltac:(lia)). lia.
    + assert (K4 : 2 ^ (- e) = 4 * 2 ^ (- e - 2)) by (replace (- e) with (2 + (- e - 2)) at 1 by lia; rewrite pow2_split by lia; reflexivity).
      pose proof (pow2_pos (- e - 2) ltac:(lia)). nia.
Qed.

(** [r] can be an entry of randint(low, high): some value of the sampler's range rounds to it *)
Definition attained (lo hi : Z) (f : fmt) (low high r : Z) : Prop :=
  exists x, float_of f x /\ drawn (to_float (int_type lo hi f) low) (to_float (int_type lo hi f) high) x = true /\
    randint_item lo hi x = Ok r.

(** For bounds below 2^24 the integers randint can return are low, ..., high - 1, and also high,
    unless high is so large that no float lies near enough below it: above 2^(p-1), or at most
    -2^(p-2), p being 24 for element types sampled as f32 and 53 for those sampled as f64. *)
Theorem C41_attained_partial : forall lo hi f low high r,
  std f -> lo <= low -> high <= hi -> Z.abs low < 2 ^ 24 -> Z.abs high < 2 ^ 24 -> low < high ->
  (attained lo hi f low high r <->
     low <= r < high \/ (r = high /\ - 2 ^ (prec f - 2) < high <= 2 ^ (prec f - 1))).
Proof.
  intros lo hi f low high r S L0 H0 L H LH. destruct (std_ok f S) as [Hp He]. pose proof (std_pow f S) as PW.
  pose proof (to_float_rep f lo hi low S L) as RL. pose proof (to_float_rep f lo hi high S H) as RH.
  unfold attained. set (lf := to_float (int_type lo hi f) low) in *. set (hf := to_float (int_type lo hi f) high) in *.
  destruct (rep_qval _ _ RL) as (ql & QL & EL). destruct (rep_qval _ _ RH) as (qh & QH & EH).
  assert (CH : forall x, randint_item lo hi x = Ok r <-> round_Z x = Some r /\ lo <= r <= hi).
  { intros x. unfold randint_item. destruct (round_Z x) as [z|]; [|split; [discriminate|intros [? _]; discriminate]].
    destruct (checked_spec lo hi z) as [[B ->]|[B ->]]; split.
    - intros E. injection E as <-. auto.
    - intros [E _]. injection E as ->. reflexivity.
    - discriminate.
    - intros [E B']. injection E as ->. contradiction. }
  assert (P2 : 2 ^ prec f = 2 * 2 ^ (prec f - 1)) by (replace (prec f) with (1 + (prec f - 1)) at 1 by lia; rewrite pow2_split by lia; reflexivity).
  assert (P4 : 2 ^ prec f = 4 * 2 ^ (prec f - 2)) by (replace (prec f) with (2 + (prec f - 2)) at 1 by lia; rewrite pow2_split by lia; reflexivity).
  split.
  - intros (x & V & D & E). apply CH in E as [E B]. destruct (drawn_val _ _ _ D) as (m & e & SX).
    destruct (round_between _ _ _ _ _ _ _ RL RH SX D) as (r' & E' & B'). rewrite E in E'. injection E' as <-.
    destruct (Z.eq_dec r high) as [->|N]; [right|left; lia]. split; [reflexivity|].
    destruct (Z_lt_le_dec (- 2 ^ (prec f - 2)) high) as [A|A]; [destruct (Z_lt_le_dec (2 ^ (prec f - 1)) high) as [C|C]; [|lia]|];
      exfalso; apply andb_true_iff in D as [_ D]; eapply (no_round_up f x m e hf high high); eauto.
  - assert (W : forall (v j : Z) (s : bool), 0 < v < 2 ^ prec f -> 0 <= j <= 2 ->
       let t := if s then - v else v in low * 2 ^ j <= t < high * 2 ^ j ->
       (if s then - ((v * 2 + 2 ^ j) / (2 * 2 ^ j)) else (v * 2 + 2 ^ j) / (2 * 2 ^ j)) = r -> lo <= r <= hi ->
       exists x, float_of f x /\ drawn lf hf x = true /\ randint_item lo hi x = Ok r).
    { intros v j s B J t BT ER BR. destruct (float_value f v j s S B J) as (m & e & V & LE & M).
      exists (S754_finite s m e). split; [exact V|]. split.
      - apply (drawn_q lf hf _ ql qh QL QH). eexists. split; [reflexivity|]. rewrite EL, EH.
        assert (T : (inject_Z (if s then Zneg m else Zpos m) * 2 ^ e == inject_Z t * 2 ^ (- j))%Q).
        { replace (if s then Zneg m else Zpos m) with (t * 2 ^ (- j - e)).
          2: { unfold t. destruct s; [change (Zneg m) with (- Zpos m)|]; rewrite M; ring. }
          rewrite inject_Z_mult, two_Z, <- Qmult_assoc, <- two_add by lia. now replace (- j - e + e) with (- j) by lia. }
        rewrite T. pose proof (two_pos (- j)) as PJ.
        assert (X : forall z, (inject_Z z == inject_Z (z * 2 ^ j) * 2 ^ (- j))%Q).
        { intros z. rewrite inject_Z_mult, two_Z, <- Qmult_assoc, <- two_add by lia. replace (j + - j) with 0 by lia. change (2 ^ 0)%Q with 1%Q. ring. }
        rewrite (X low), (X high). split.
        + apply Qmult_le_compat_r; [|lra]. rewrite <- Zle_Qle. lia.
        + apply Qmult_lt_r; [exact PJ|]. rewrite <- Zlt_Qlt. lia.
      - apply CH. split; [|exact BR]. cbn [round_Z]. f_equal. rewrite <- ER.
        assert (G : (if 0 <=? e then Zpos m * 2 ^ e else (Zpos m * 2 + 2 ^ (- e)) / (2 * 2 ^ (- e))) = (v * 2 + 2 ^ j) / (2 * 2 ^ j)).
        { pose proof (pow2_pos j ltac:(lia)) as PJ. destruct (Z.leb_spec 0 e) as [E0|E0].
          - assert (j = 0) by lia. assert (e = 0) by lia. subst j e. rewrite M. change (- 0 - 0) with 0. change (2 ^ 0) with 1.
            apply Z.div_unique with 1; lia.
          - rewrite M. set (k := 2 ^ (- j - e)). assert (PK : 0 < k) by (apply pow2_pos; lia).
            replace (2 ^ (- e)) with (2 ^ j * k) by (unfold k; rewrite <- pow2_split by lia; f_equal; lia).
            replace (v * k * 2 + 2 ^ j * k) with ((v * 2 + 2 ^ j) * k) by ring. replace (2 * (2 ^ j * k)) with (2 * 2 ^ j * k) by ring.
            apply Z.div_mul_cancel_r; lia. }
        rewrite G. destruct s; reflexivity. }
    intros [B|[-> [B1 B2]]].
    + destruct (Z.lt_trichotomy r 0) as [N|[->|N]].
      * apply (W (- r) 0 true); rewrite ?Z.pow_0_r; try lia. change (2 * 1) with 2. rewrite <- (Z.div_unique (- r * 2 + 1) 2 (- r) 1); lia.
      * exists (S754_zero false). split; [reflexivity|]. split; [|apply CH; split; [reflexivity|lia]].
        apply (drawn_q lf hf _ ql qh QL QH). exists 0%Q. split; [reflexivity|]. rewrite EL, EH.
        change 0%Q with (inject_Z 0). rewrite <- Zle_Qle, <- Zlt_Qlt. lia.
      * apply (W r 0 false); rewrite ?Z.pow_0_r; try lia. change (2 * 1) with 2. rewrite <- (Z.div_unique (r * 2 + 1) 2 r 1); lia.
    + destruct (Z_lt_le_dec 0 high) as [N|N].
      * apply (W (2 * high - 1) 1 false); change (2 ^ 1) with 2; try lia.
        rewrite <- (Z.div_unique ((2 * high - 1) * 2 + 2) (2 * 2) high 0); lia.
      * apply (W (1 - 4 * high) 2 true); change (2 ^ 2) with 4; try lia.
        rewrite <- (Z.div_unique ((1 - 4 * high) * 2 + 4) (2 * 4) (- high) 6); lia.
Qed.
Print Assumptions C41_attained_partial.
(** randint(-1, 0) can return 0; randint(-4194305, -4194304) cannot return -4194304 *)
Example C41_attained_ex : attained (- 2 ^ 31) (2 ^ 31 - 1) f32 (-1) 0 0 /\
  ~ attained (- 2 ^ 31) (2 ^ 31 - 1) f32 (-4194305) (-4194304) (-4194304).
Proof.
  split.
  - apply C41_attained_partial; try (now left); cbn; try lia.
  - intros A. apply C41_attained_partial in A; try (cbn; lia); [|now left]. cbn in A. lia.
Qed.

(** ** C41 for floating-point element types *)
(** bounds that are integers below 2^24: the entries are integers from low to high *)
Theorem C41_randint_float_partial : forall f (h : heap spec_float) sh low high v w samples,
  std f -> rep low v -> rep high w -> Z.abs v < 2 ^ 24 -> Z.abs w < 2 ^ 24 -> v < w ->
  length samples = prod sh ->
  Forall (fun x => drawn (to_float (float_type f) low) (to_float (float_type f) high) x = true) samples ->
  exists h' a l, nd_randint_float f h sh low high samples = Ok (h', a) /\ made h h' a sh l /\
    Forall2 (fun x y => exists r, round_Z x = Some r /\ rep y r /\ v <= r <= w) samples l.
Proof.
  intros f h sh low high v w samples S RL RH BL BH VW LEN FA. destruct (std_ok f S) as [Hp He]. pose proof (std_pow f S) as PW.
  assert (T : forall x z, rep x z -> Z.abs z < 2 ^ 24 -> rep (to_float (float_type f) x) z).
  { intros x z R B. unfold to_float. cbn [n_to_f32 n_float float_type]. apply convert_rep; try lia. now apply convert_rep. }
  pose proof (T _ _ RL BL) as RL'. pose proof (T _ _ RH BH) as RH'. clear T.
  set (lf := to_float (float_type f) low) in *. set (hf := to_float (float_type f) high) in *.
  assert (LT : forall x y, rep x v -> rep y w -> vltb x y = true).
  { intros x y RX RY. apply vltb_q. destruct (rep_qval _ _ RX) as (a & QA & EA). destruct (rep_qval _ _ RY) as (b & QB & EB).
    exists a, b. split; [exact QA|]. split; [exact QB|]. rewrite EA, EB. now rewrite <- Zlt_Qlt. }
  assert (HG : (inject_Z (2 ^ 25) < huge (prec f) (emax f))%Q) by (destruct S as [-> | ->]; vm_compute; reflexivity).
  assert (VV : forall x z, rep x z -> Z.abs z < 2 ^ 24 -> float_of f (to_float (float_type f) x)).
  { intros x z R B. unfold to_float. cbn [n_to_f32 n_float float_type].
    destruct (rep_qval _ _ (convert_rep f32 x z ltac:(cbn; lia) ltac:(cbn; lia) B R)) as (q & Q & _).
    apply (convert_rounds f _ q S Q). }
  assert (FIN : is_finite (fsub f hf lf) = true).
  { apply qval_finite. destruct (rep_qval _ _ RL') as (a & QA & EA). destruct (rep_qval _ _ RH') as (b & QB & EB).
    destruct (sub_q (prec f) (emax f) Hp He hf lf b a (VV _ _ RH BH) (VV _ _ RL BL) QB QA) as [_ [(c & C & _)|[_ X]]]; [eauto|].
    exfalso. revert X. apply Qlt_not_le. apply Qle_lt_trans with (inject_Z (2 ^ 25)); [|exact HG].
    rewrite EA, EB. unfold Qminus. rewrite <- inject_Z_opp, <- inject_Z_plus, Qabs_pos; [|change 0%Q with (inject_Z 0)]; rewrite <- Zle_Qle; lia. }
  unfold nd_randint_float, uniform_new. fold lf hf. rewrite (LT low high RL RH). cbn [guard bind]. fold lf hf. rewrite (LT lf hf RL' RH'), FIN. cbn [guard bind].
  pose proof (from_buffer_made h sh (map (round_float f) samples) ltac:(rewrite map_length; exact LEN)) as M.
  destruct (from_buffer h sh (map (round_float f) samples)) as [h' a]. exists h', a, (map (round_float f) samples).
  split; [reflexivity|]. split; [exact M|]. clear M LEN. induction FA as [|x xs D FA IH]; cbn [map]; constructor; [|exact IH].
  destruct (drawn_val _ _ _ D) as (m & e & SX). destruct (round_between _ _ _ _ _ _ _ RL' RH' SX D) as (r & E & B).
  exists r. split; [exact E|]. split; [|exact B]. assert (OR : rep (of_Z f r) r) by (apply of_Z_rep; lia).
  destruct x as [s|s| |s pm pe]; cbn [sval] in SX; try discriminate.
  - cbn [round_Z] in E. injection E as <-. reflexivity.
  - unfold round_float. rewrite E. destruct r; [reflexivity|exact OR..].
Qed.
Print Assumptions C41_randint_float_partial.
Example C41_float_ex : exists h' a, nd_randint_float f64 [] [1%nat] (of_Z f64 (-2)) (of_Z f64 5)
    [S754_finite true (2 ^ 52 + 2 ^ 51) (-53)] = Ok (h', a) /\ elems h' a = Ok [of_Z f64 (-1)].
Proof. eexists _, _. split; vm_compute; reflexivity. Qed.

(** bounds that are not integers: randint(0.25, 0.5) returns 0, below the range, and
    randint(0.5, 0.75) returns 1, above it *)
Theorem C41_float_bounds_refuted : exists quarter half x y h1 a1 h2 a2,
  let three := three_quarters in
  float_of f32 quarter /\ float_of f32 half /\ float_of f32 three /\
  drawn quarter half x = true /\ nd_randint_float f32 [] [1%nat] quarter half [x] = Ok (h1, a1) /\
  elems h1 a1 = Ok [S754_zero false] /\ vltb (S754_zero false) quarter = true /\
  drawn half three y = true /\ nd_randint_float f32 [] [1%nat] half three [y] = Ok (h2, a2) /\
  elems h2 a2 = Ok [of_Z f32 1] /\ vltb three (of_Z f32 1) = true.
Proof.
  exists (binary_normalize 24 128 1 (-2) false), (binary_normalize 24 128 1 (-1) false), (binary_normalize 24 128 3 (-3) false), (binary_normalize 24 128 5 (-3) false).
  eexists _, _, _, _. repeat split; vm_compute; reflexivity.
Qed.
Print Assumptions C41_float_bounds_refuted.

(** bounds above 2^24: low is rounded, and randint(16777217, 16777220) can return 16777216 *)
Theorem C41_below_low_refuted : exists low high x h' a r,
  float_of f32 x /\ drawn (to_float i32 low) (to_float i32 high) x = true /\
  nd_randint (- 2 ^ 31) (2 ^ 31 - 1) f32 [] [1%nat] low high [x] = Ok (h', a) /\ elems h' a = Ok [r] /\ r < low < high.
Proof.
  exists 16777217, 16777220, (of_Z f32 16777216). eexists _, _, 16777216. repeat split; vm_compute; reflexivity.
Qed.
Print Assumptions C41_below_low_refuted.
