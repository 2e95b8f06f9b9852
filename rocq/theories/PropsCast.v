(** PropsCast.v: conversion between element types with astype (C89). *)
From Coq Require Import List Arith Lia Lqa Bool ZArith QArith Qabs Floats.SpecFloat.
From Verif Require Import Base Spec SpecFacts Layout Views Access HeapFacts OpFacts AccessFacts Numeric NumericFacts FloatErr Cast CastFacts PropsOps.
Import ListNotations.
Local Close Scope Q_scope. Local Close Scope nat_scope. Local Open Scope Z_scope.

(** ** What a conversion must do *)
(** the values of a type, the number a value stands for (None for NaN and the infinities), and
    its sign (None for NaN) *)
Definition in_type (t : dtype) : carrier t -> Prop :=
  match t with IntT lo hi => fun x => lo <= x <= hi | FloatT f => fun x => valid_binary (prec f) (emax f) x = true end.
Definition value (t : dtype) : carrier t -> option Q :=
  match t with IntT _ _ => fun x => Some (inject_Z x) | FloatT _ => qval end.
Definition sign (t : dtype) : carrier t -> option bool :=
  match t with IntT _ _ => fun x => Some (x <? 0) | FloatT _ => sign_of end.
(** the absolute error of results below the normal range *)
Definition slack (s : dtype) (f : fmt) : Q := match s with IntT _ _ => 0%Q | FloatT _ => tiny (prec f) (emax f) end.

(** everything can become a float; a value becomes an integer if it is above lo - 1 and below hi + 1 *)
Definition convertible (s d : dtype) (x : carrier s) : Prop :=
  match d with
  | IntT lo hi => exists q, value s x = Some q /\ (inject_Z lo - 1 < q < inject_Z hi + 1)%Q
  | FloatT _ => True
  end.
(** an integer result is the integer part; a float result is the value rounded, with its sign *)
Definition converted (s d : dtype) (x : carrier s) : carrier d -> Prop :=
  match d with
  | IntT _ _ => fun y => exists q, value s x = Some q /\ int_part q y
  | FloatT f => fun y => sign_of y = sign s x /\
      match value s x with Some q => rounds (prec f) (emax f) (slack s f) q y | None => qval y = None end
  end.

Definition ok_type (t : dtype) : Prop := match t with IntT lo hi => lo <= 0 <= hi | FloatT f => std f end.
Lemma dtypes_ok t : In t dtypes -> ok_type t.
Proof. intros I. repeat destruct I as [<-|I]; [..|destruct I]; cbn; try lia; unfold std; auto. Qed.

Lemma checked_spec lo hi v : (lo <= v <= hi /\ checked lo hi v = Ok v) \/ (~ lo <= v <= hi /\ checked lo hi v = Panic).
Proof.
  unfold checked. destruct (Z.leb_spec lo v), (Z.leb_spec v hi); cbn [andb]; [left|right..]; split; (reflexivity || lia).
Qed.

Lemma cast_spec s d x : ok_type s -> ok_type d -> in_type s x ->
  (convertible s d x /\ exists y, cast s d x = Ok y /\ in_type d y /\ converted s d x y) \/ (~ convertible s d x /\ cast s d x = Panic).
Proof.
  intros OS OD IX. destruct d as [lo hi|f]; cbn [convertible converted in_type].
  - assert (G : forall q z, value s x = Some q -> int_part q z -> cast s (IntT lo hi) x = checked lo hi z ->
      ((exists q, value s x = Some q /\ (inject_Z lo - 1 < q < inject_Z hi + 1)%Q) /\
       exists y, cast s (IntT lo hi) x = Ok y /\ lo <= y <= hi /\ (exists q, value s x = Some q /\ int_part q y)) \/
      (~ (exists q, value s x = Some q /\ (inject_Z lo - 1 < q < inject_Z hi + 1)%Q) /\ cast s (IntT lo hi) x = Panic)).
    { intros q z V IP ->. pose proof (int_part_fits q z lo hi IP OD) as F. destruct (checked_spec lo hi z) as [[B ->]|[B ->]].
      - left. split; [exists q; split; [exact V|now apply F]|]. exists z. eauto.
      - right. split; [|reflexivity]. intros (q' & V' & H). rewrite V in V'. injection V' as <-. now apply B, F. }
    destruct s as [lo' hi'|f].
    + exact (G (inject_Z x) x eq_refl (int_part_int x) eq_refl).
    + destruct x as [b|b| |b m e].
      * exact (G 0%Q 0 eq_refl (int_part_int 0) eq_refl).
      * right. split; [|reflexivity]. intros (q & Q & _). discriminate.
      * right. split; [|reflexivity]. intros (q & Q & _). discriminate.
      * exact (G _ _ eq_refl (trunc_int_part (if b then Zneg m else Zpos m) e) eq_refl).
  - left. split; [exact I|]. cbn [ok_type] in OD. destruct s as [lo' hi'|f'].
    + exists (of_Z f x). pose proof (of_Z_rounds f x OD) as R. split; [reflexivity|]. split; [apply R|]. split; [now apply of_Z_sign|exact R].
    + exists (convert f x). split; [reflexivity|]. cbn [value slack sign]. destruct (qval x) as [q|] eqn:Q.
      * pose proof (convert_rounds f x q OD Q) as R. split; [apply R|]. split; [now apply convert_sign|exact R].
      * split; [destruct x; try discriminate; reflexivity|]. split; [now apply convert_sign|]. destruct x; try discriminate; reflexivity.
Qed.

(** ** C89 *)
(** For every array of every layout and every pair of element types: astype converts element by
    element into a new array of the same shape, and panics exactly when some element has no
    value in the new type. *)
Theorem C89_astype : forall s d, In s dtypes -> In d dtypes -> forall h hF a, valid h a -> (length (a_shape a) <= MAX_DIMS)%nat ->
  (forall idx x, in_range idx (a_shape a) -> get h a idx = Ok x -> in_type s x) ->
  ((forall idx x, in_range idx (a_shape a) -> get h a idx = Ok x -> convertible s d x) /\
   exists vs r, nd_cast s d h hF a = Ok (hF ++ [Some vs], r) /\ a_shape r = a_shape a /\ valid (hF ++ [Some vs]) r /\
     a_blk r = length hF /\ length vs = prod (a_shape a) /\
     forall idx, in_range idx (a_shape a) -> exists x y, get h a idx = Ok x /\ get (hF ++ [Some vs]) r idx = Ok y /\
       in_type d y /\ converted s d x y) \/
  ((exists idx x, in_range idx (a_shape a) /\ get h a idx = Ok x /\ ~ convertible s d x) /\ nd_cast s d h hF a = Panic).
Proof.
  intros s d Is Id h hF a V MD IT. apply dtypes_ok in Is, Id. unfold nd_cast. rewrite nd_astype_eq by assumption.
  assert (GE : forall idx, In idx (indices (a_shape a)) -> exists x, get h a idx = Ok x /\ in_type s x).
  { intros idx I. apply in_indices in I. destruct (proj2 V idx I) as (x & E). exists x. split; [exact E|]. eapply IT; eassumption. }
  set (F := fun idx => (x <- get h a idx ;; cast s d x)%res).
  assert (C : (forall idx x, in_range idx (a_shape a) -> get h a idx = Ok x -> convertible s d x) \/
    exists idx x, in_range idx (a_shape a) /\ get h a idx = Ok x /\ ~ convertible s d x).
  { assert (G : forall l, (forall idx, In idx l -> exists x, get h a idx = Ok x /\ in_type s x) ->
      (forall idx x, In idx l -> get h a idx = Ok x -> convertible s d x) \/ exists idx x, In idx l /\ get h a idx = Ok x /\ ~ convertible s d x).
    { induction l as [|i l IH]; intros L; [left; intros ? ? []|].
      destruct (L i (or_introl eq_refl)) as (x & E & X). destruct (cast_spec s d x Is Id X) as [[Y _]|[N _]].
      - destruct IH as [IH|(idx & x' & I & R)]; [intros; apply L; now right| |right; exists idx, x'; split; [now right|exact R]].
        left. intros idx x' [<-|I] E'; [|eauto]. rewrite E in E'. now injection E' as <-.
      - right. exists i, x. split; [now left|]. auto. }
    destruct (G _ GE) as [L|(idx & x & I & R)]; [left|right].
    - intros idx x I. apply L. now apply in_indices.
    - exists idx, x. split; [now apply in_indices|exact R]. }
  destruct C as [C|(idx & x & R & E & N)].
  - left. split; [exact C|].
    assert (FO : forall idx, In idx (indices (a_shape a)) -> exists x y, get h a idx = Ok x /\ F idx = Ok y /\ in_type d y /\ converted s d x y).
    { intros idx I. destruct (GE idx I) as (x & E & X). exists x. destruct (cast_spec s d x Is Id X) as [[_ (y & E' & Y)]|[N _]].
      - exists y. split; [exact E|]. split; [|exact Y]. unfold F. rewrite E. exact E'.
      - exfalso. apply N. eapply C; [|exact E]. now apply in_indices. }
    destruct (mapM_Ok F (indices (a_shape a))) as (vs & EV).
    { intros idx I. destruct (FO idx I) as (x & y & _ & Y & _). eauto. }
    fold F. rewrite EV. cbn [bind]. exists vs, (fresh_arr (length hF) (prod (a_shape a)) (a_shape a)).
    assert (L : length vs = prod (a_shape a)) by (apply mapM_length in EV; now rewrite indices_length in EV).
    split; [reflexivity|]. split; [reflexivity|]. split; [now apply fresh_valid|]. split; [reflexivity|]. split; [exact L|].
    intros idx R. destruct (FO idx (proj2 (in_indices _ _) R)) as (x & y & E & EF & Y). exists x, y. split; [exact E|]. split; [|exact Y].
    destruct (fresh_get hF (a_shape a) vs (prod (a_shape a)) idx L R) as (v & NV & ->).
    destruct (mapM_nth _ _ _ _ _ EV (nth_indices_rank _ _ R)) as (v' & NV' & E'). congruence.
  - right. split; [eauto|]. fold F. rewrite (mapM_panics F (indices (a_shape a)) idx); [reflexivity|now apply in_indices|..].
    + unfold F. rewrite E. cbn [bind]. destruct (cast_spec s d x Is Id (IT _ _ R E)) as [[Y _]|[_ P]]; [contradiction|exact P].
    + intros i I. destruct (GE i I) as (x' & E' & X'). unfold F. rewrite E'. cbn [bind].
      destruct (cast_spec s d x' Is Id X') as [[_ (y & -> & _)]|[_ ->]]; discriminate.
Qed.

(** ** Round trips *)
(** every value of the first type is also a value of the second *)
Definition embeds (s d : dtype) : bool :=
  match s, d with
  | IntT lo hi, IntT lo' hi' => (lo' <=? lo) && (hi <=? hi')
  | IntT lo hi, FloatT f => (- 2 ^ prec f <? lo) && (hi <? 2 ^ prec f)
  | FloatT f, FloatT g => (prec f <=? prec g) && (emax f <=? emax g)
  | FloatT _, IntT _ _ => false
  end.

(** same number, or the same infinity, or both NaN *)
Definition same_value (s d : dtype) (x : carrier s) (y : carrier d) : Prop :=
  sign d y = sign s x /\
  match value s x, value d y with Some q, Some r => (q == r)%Q | None, None => True | _, _ => False end.

Lemma round_rep_q (x : spec_float) q (f g : fmt) : std f -> std g -> prec f <= prec g -> emax f <= emax g ->
  valid_binary (prec f) (emax f) x = true -> qval x = Some q ->
  exists V k, Z.abs V < 2 ^ prec g /\ emin (prec g) (emax g) <= k /\ (q == inject_Z V * 2 ^ k)%Q.
Proof.
  intros Sf Sg LP LE VB Q. destruct (std_ok f Sf) as [Hp He]. destruct (std_ok g Sg) as [Hp' He'].
  destruct x as [b|b| |b m e]; try discriminate; cbn [qval] in Q; injection Q as <-.
  - exists 0, 0. split; [apply (pow2_pos (prec g)); lia|]. split; [unfold emin; lia|]. reflexivity.
  - destruct (valid_digits _ _ Hp _ _ _ VB) as (L & E & U). exists (if b then Zneg m else Zpos m), e.
    split; [|split; [unfold emin in *; lia|reflexivity]].
    apply Z.lt_le_trans with (2 ^ prec f); [destruct b; exact L|]. apply Z.pow_le_mono_r; lia.
Qed.

Lemma embeds_elem s d x : ok_type s -> ok_type d -> embeds s d = true -> in_type s x ->
  exists y, cast s d x = Ok y /\ in_type d y /\ same_value s d x y /\ cast d s y = Ok x.
Proof.
  intros OS OD E X. unfold same_value. destruct s as [lo hi|f], d as [lo' hi'|g]; cbn [embeds ok_type in_type] in *; try discriminate; apply andb_prop in E as [E1 E2].
  - apply Z.leb_le in E1, E2. exists x. destruct (checked_spec lo' hi' x) as [[B C]|[B _]]; [|lia]. destruct (checked_spec lo hi x) as [[B' C']|[B' _]]; [|lia].
    split; [exact C|]. split; [exact B|]. split; [split; reflexivity|exact C'].
  - apply Z.ltb_lt in E1, E2. destruct (std_ok g OD) as [Hp He]. exists (of_Z g x). split; [reflexivity|].
    pose proof (of_Z_rounds g x OD) as [[VB EX] _].
    destruct (EX x 0) as (c & Qc & Ec); [lia|unfold emin; lia|change (2 ^ 0)%Q with 1%Q; ring| |].
    { change (Qabs (inject_Z x)) with (inject_Z (Z.abs x)). rewrite <- two_Z by lia. rewrite <- Zlt_Qlt.
      apply Z.lt_le_trans with (2 ^ prec g); [lia|apply Z.pow_le_mono_r; lia]. }
    split; [exact VB|]. cbn [sign value]. rewrite Qc. split; [split; [now apply of_Z_sign|now symmetry]|].
    cbn [cast]. destruct (of_Z g x) as [b|b| |b m e]; try discriminate; cbn [qval] in Qc; injection Qc as <-.
    + assert (Z0 : 0 = x) by (apply inject_Z_injective; exact Ec). rewrite <- Z0. destruct (checked_spec lo hi 0) as [[_ C]|[B _]]; [exact C|lia].
    + rewrite (int_part_unique (inject_Z x) (trunc_Z (if b then Zneg m else Zpos m) e) x).
      * destruct (checked_spec lo hi x) as [[_ C]|[B _]]; [exact C|lia].
      * eapply int_part_comp; [exact Ec|apply trunc_int_part].
      * apply int_part_int.
  - apply Z.leb_le in E1, E2. destruct (std_ok f OS) as [Hp He]. destruct (std_ok g OD) as [Hp' He']. exists (convert g x). split; [reflexivity|].
    cbn [sign value cast]. destruct (qval x) as [q|] eqn:Q.
    + destruct (round_rep_q x q f g OS OD E1 E2 X Q) as (V & k & AV & LK & EV).
      assert (B1 : (Qabs q < 2 ^ emax f)%Q) by (apply (valid_abs _ _ Hp x); assumption).
      pose proof (convert_rounds g x q OD Q) as [[VB EX] _].
      destruct (EX V k AV LK EV) as (c & Qc & Ec). { apply Qlt_le_trans with (2 ^ emax f)%Q; [exact B1|now apply two_le]. }
      split; [exact VB|]. rewrite Qc. split; [split; [now apply convert_sign|now symmetry]|]. apply (f_equal (@Ok spec_float)).
      pose proof (convert_rounds f (convert g x) c OS Qc) as [[VB2 EX2] _].
      destruct (round_rep_q x q f f OS OS ltac:(lia) ltac:(lia) X Q) as (V2 & k2 & AV2 & LK2 & EV2).
      destruct (EX2 V2 k2 AV2 LK2) as (c2 & Qc2 & Ec2). { now rewrite Ec. } { now rewrite Ec. }
      apply (qval_unique (prec f) (emax f) Hp He _ _ c2 q); try assumption; [now rewrite Ec2|]. rewrite !convert_sign by assumption. reflexivity.
    + destruct x; try discriminate; repeat split.
Qed.

(** When every value of s is a value of d, converting an array to d keeps every value, and
    converting back gives exactly the original elements, including NaN and the sign of zero. *)
Theorem C89_round_trip : forall s d, In s dtypes -> In d dtypes -> embeds s d = true ->
  forall h hD hS a, valid h a -> (length (a_shape a) <= MAX_DIMS)%nat ->
  (forall idx x, in_range idx (a_shape a) -> get h a idx = Ok x -> in_type s x) ->
  exists hD' b hS' c, nd_cast s d h hD a = Ok (hD', b) /\ nd_cast d s hD' hS b = Ok (hS', c) /\
    a_shape b = a_shape a /\ a_shape c = a_shape a /\
    forall idx, in_range idx (a_shape a) -> exists x y, get h a idx = Ok x /\ get hD' b idx = Ok y /\ same_value s d x y /\ get hS' c idx = Ok x.
Proof.
  intros s d Is Id E h hD hS a V MD IT. apply dtypes_ok in Is, Id.
  assert (EL : forall idx, In idx (indices (a_shape a)) -> exists x y, get h a idx = Ok x /\ cast s d x = Ok y /\ in_type d y /\ same_value s d x y /\ cast d s y = Ok x).
  { intros idx I. apply in_indices in I. destruct (proj2 V idx I) as (x & EX). destruct (embeds_elem s d x Is Id E (IT _ _ I EX)) as (y & R). eauto. }
  unfold nd_cast. rewrite nd_astype_eq by assumption.
  destruct (mapM_Ok (fun idx => (x <- get h a idx ;; cast s d x)%res) (indices (a_shape a))) as (ys & EY).
  { intros idx I. destruct (EL idx I) as (x & y & -> & C & _). cbn [bind]. eauto. }
  rewrite EY. cbn [bind]. assert (LY : length ys = prod (a_shape a)) by (apply mapM_length in EY; now rewrite indices_length in EY).
  set (b := fresh_arr (length hD) (prod (a_shape a)) (a_shape a)). set (hD' := hD ++ [Some ys]).
  assert (GB : forall idx, in_range idx (a_shape a) -> exists x y, get h a idx = Ok x /\ get hD' b idx = Ok y /\ same_value s d x y /\ cast d s y = Ok x).
  { intros idx R. destruct (EL idx (proj2 (in_indices _ _) R)) as (x & y & E1 & E2 & _ & E3 & E4). exists x, y. split; [exact E1|].
    destruct (fresh_get hD (a_shape a) ys (prod (a_shape a)) idx LY R) as (v & NV & G). fold hD' b in G. rewrite G.
    destruct (mapM_nth _ _ _ _ _ EY (nth_indices_rank _ _ R)) as (v' & NV' & E'). rewrite E1 in E'. cbn [bind] in E'. split; [congruence|]. auto. }
  exists hD', b. rewrite nd_astype_eq; [|now apply fresh_valid|exact MD]. change (a_shape b) with (a_shape a).
  destruct (mapM_Ok (fun idx => (x <- get hD' b idx ;; cast d s x)%res) (indices (a_shape a))) as (zs & EZ).
  { intros idx I. apply in_indices in I. destruct (GB idx I) as (x & y & _ & -> & _ & C). cbn [bind]. eauto. }
  rewrite EZ. cbn [bind]. assert (LZ : length zs = prod (a_shape a)) by (apply mapM_length in EZ; now rewrite indices_length in EZ).
  exists (hS ++ [Some zs]), (fresh_arr (length hS) (prod (a_shape a)) (a_shape a)).
  split; [reflexivity|]. split; [reflexivity|]. split; [reflexivity|]. split; [reflexivity|].
  intros idx R. destruct (GB idx R) as (x & y & E1 & E2 & E3 & E4). exists x, y. split; [exact E1|]. split; [exact E2|]. split; [exact E3|].
  destruct (fresh_get hS (a_shape a) zs (prod (a_shape a)) idx LZ R) as (v & NV & ->).
  destruct (mapM_nth _ _ _ _ _ EZ (nth_indices_rank _ _ R)) as (v' & NV' & E'). rewrite E2 in E'. cbn [bind] in E'. congruence.
Qed.

(** For every other pair of types some value does not come back. *)
Definition suspects (t : dtype) : list (carrier t) :=
  match t with
  | IntT lo hi => [lo; hi; 2 ^ 24 + 1; 2 ^ 53 + 1]
  | FloatT f => [binary_normalize (prec f) (emax f) 1 (-1) false; binary_normalize (prec f) (emax f) (2 ^ 30 + 1) (-30) false]
  end.
Definition in_typeb (t : dtype) : carrier t -> bool :=
  match t with IntT lo hi => fun x => (lo <=? x) && (x <=? hi) | FloatT f => valid_binary (prec f) (emax f) end.
Definition same_elem (t : dtype) : carrier t -> carrier t -> bool :=
  match t with IntT _ _ => Z.eqb | FloatT _ => fun x y => match SFcompare x y with Some Eq => true | _ => false end end.
Definition lost (s d : dtype) (x : carrier s) : bool :=
  in_typeb s x && same_elem s x x && match (y <- cast s d x ;; cast d s y)%res with Ok z => negb (same_elem s z x) | _ => true end.

Lemma lost_pairs : forallb (fun s => forallb (fun d => embeds s d || existsb (lost s d) (suspects s)) dtypes) dtypes = true.
Proof. vm_compute. reflexivity. Qed.

Theorem C89_only_those : forall s d, In s dtypes -> In d dtypes -> embeds s d = false ->
  exists x, in_type s x /\ (y <- cast s d x ;; cast d s y)%res <> Ok x.
Proof.
  intros s d Is Id E. pose proof (proj1 (forallb_forall _ _) (proj1 (forallb_forall _ _) lost_pairs s Is) d Id) as L. cbv beta in L.
  rewrite E in L. cbn [orb] in L. apply existsb_exists in L as (x & _ & L). exists x. unfold lost in L.
  apply andb_prop in L as [L L3]. apply andb_prop in L as [L1 L2]. split.
  - destruct s; cbn [in_type in_typeb] in *; [lia|exact L1].
  - intros C. rewrite C in L3. now rewrite L2 in L3.
Qed.

(** ** Through an integer type *)
(** Converting floats to an integer type and back to the same float type gives the integer part
    exactly: no value is rounded on the way back. *)
Theorem C89_integer_part : forall f lo hi x n, In (FloatT f) dtypes -> in_type (FloatT f) x -> cast (FloatT f) (IntT lo hi) x = Ok n ->
  exists q y c, qval x = Some q /\ int_part q n /\ cast (IntT lo hi) (FloatT f) n = Ok y /\ qval y = Some c /\ (c == inject_Z n)%Q.
Proof.
  intros f lo hi x n I X C. apply dtypes_ok in I. cbn [ok_type in_type] in *. destruct (std_ok f I) as [Hp He].
  assert (G : exists q, qval x = Some q /\ int_part q n /\ exists V k, Z.abs V < 2 ^ prec f /\ 0 <= k /\ n = V * 2 ^ k /\ Z.abs n < 2 ^ emax f).
  { cbn [cast] in C. destruct x as [b|b| |b m e]; try discriminate.
    - exists 0%Q. destruct (checked_spec lo hi 0) as [[_ E]|[_ E]]; rewrite E in C; [injection C as <-|discriminate].
      split; [reflexivity|]. split; [exact (int_part_int 0)|]. exists 0, 0. pose proof (pow2_pos (prec f) ltac:(lia)). pose proof (pow2_pos (emax f) ltac:(lia)). cbn [Z.abs]. lia.
    - set (M := if b then Zneg m else Zpos m) in *. destruct (checked_spec lo hi (trunc_Z M e)) as [[_ E]|[_ E]]; rewrite E in C; [injection C as <-|discriminate].
      exists (inject_Z M * 2 ^ e)%Q. split; [reflexivity|]. split; [apply trunc_int_part|].
      destruct (valid_digits _ _ Hp _ _ _ X) as (L & E1 & E2). assert (AM : Z.abs M = Zpos m) by (unfold M; destruct b; reflexivity).
      unfold trunc_Z. destruct (Z.leb_spec 0 e) as [LE|LE].
      + exists M, e. split; [lia|]. split; [exact LE|]. split; [reflexivity|]. rewrite Z.abs_mul, AM, (Z.abs_eq (2 ^ e)) by (apply Z.pow_nonneg; lia).
        apply Z.lt_le_trans with (2 ^ prec f * 2 ^ e); [apply Z.mul_lt_mono_pos_r; [apply pow2_pos; lia|lia]|]. rewrite <- pow2_split by lia. apply Z.pow_le_mono_r; lia.
      + exists (M ÷ 2 ^ (- e)), 0. pose proof (pow2_pos (- e) ltac:(lia)) as W.
        assert (A : Z.abs (M ÷ 2 ^ (- e)) <= Zpos m).
        { rewrite <- AM, Z.quot_abs_l || idtac. rewrite Z.quot_div by lia. rewrite !Z.abs_mul.
          assert (Z.abs M / Z.abs (2 ^ (- e)) <= Z.abs M) by (apply Z.div_le_upper_bound; nia).
          assert (0 <= Z.abs M / Z.abs (2 ^ (- e))) by (apply Z.div_pos; lia).
          assert (Z.abs (Z.sgn M) <= 1 /\ Z.abs (Z.sgn (2 ^ (- e))) <= 1) by lia. rewrite (Z.abs_eq (_ / _)) by assumption. nia. }
        split; [lia|]. split; [lia|]. split; [now rewrite Z.pow_0_r, Z.mul_1_r|]. apply Z.lt_le_trans with (2 ^ prec f); [lia|]. apply Z.pow_le_mono_r; lia. }
  destruct G as (q & Q & IP & V & k & AV & LK & EN & AN). exists q, (of_Z f n).
  destruct (of_Z_rounds f n I) as [[_ EX] _]. destruct (EX V k AV) as (c & Qc & Ec); [unfold emin; lia|rewrite EN, inject_Z_mult, two_Z by lia; reflexivity| |].
  { change (Qabs (inject_Z n)) with (inject_Z (Z.abs n)). rewrite <- two_Z by lia. now rewrite <- Zlt_Qlt. }
  exists c. split; [exact Q|]. split; [exact IP|]. split; [reflexivity|]. split; [exact Qc|exact Ec].
Qed.

(** ** Examples *)
Definition half (n : Z) : spec_float := binary_normalize 53 1024 n (-1) false.
(** -2.5 127.5 / 0.5 -0 as f64, read through its transpose *)
Definition h89 : heap spec_float := [Some [half (-5); half 255; half 1; S754_zero true]].
Definition a89 : arr := mkArr 0 0 4 4 [2; 2]%nat [1; 2]%nat fresh_flags.
Example C89_ex : valid h89 a89 /\ (length (a_shape a89) <= MAX_DIMS)%nat /\ In (FloatT f64) dtypes /\ In (signed_t 8) dtypes /\
  (forall idx x, in_range idx (a_shape a89) -> get h89 a89 idx = Ok x -> in_type (FloatT f64) x) /\
  nd_cast (FloatT f64) (signed_t 8) h89 [] a89 = Ok ([Some [-2; 0; 127; 0]], fresh_arr 0 4 [2; 2]%nat) /\
  nd_cast (FloatT f64) (unsigned 8) h89 [] a89 = Panic /\
  nd_cast (FloatT f64) (signed_t 8) [Some [half 256]] [] (fresh_arr 0 1 [1]%nat) = Panic.
Proof.
  assert (G : forall idx, in_range idx (a_shape a89) -> exists v, get h89 a89 idx = Ok v /\ in_type (FloatT f64) v).
  { intros idx R. apply in_indices in R. cbn in R. repeat (destruct R as [<-|R]; [eexists; split; vm_compute; reflexivity|]). destruct R. }
  split; [split; [reflexivity|intros idx R; destruct (G idx R) as (v & E & _); eauto]|]. split; [unfold MAX_DIMS; cbn; lia|].
  split; [cbn [dtypes In]; tauto|]. split; [cbn [dtypes In]; tauto|].
  split; [intros idx x R E; destruct (G idx R) as (v & E' & T); rewrite E in E'; injection E' as <-; exact T|].
  repeat split; vm_compute; reflexivity.
Qed.

(** i32 fits in f64 but not in f32: 16777217 comes back as 16777216, and the largest i32 does not
    come back at all, because its float is 2147483648.  The largest u128 becomes infinity in f32. *)
Example C89_round_ex : embeds (signed_t 32) (FloatT f64) = true /\ embeds (signed_t 32) (FloatT f32) = false /\
  (y <- cast (signed_t 32) (FloatT f32) 16777217 ;; cast (FloatT f32) (signed_t 32) y)%res = Ok 16777216 /\
  (y <- cast (signed_t 32) (FloatT f32) 2147483647 ;; cast (FloatT f32) (signed_t 32) y)%res = Panic /\
  (y <- cast (signed_t 32) (FloatT f64) 2147483647 ;; cast (FloatT f64) (signed_t 32) y)%res = Ok 2147483647 /\
  cast (unsigned 128) (FloatT f32) (2 ^ 128 - 1) = Ok (S754_infinity false) /\
  embeds (FloatT f32) (FloatT f64) = true /\ embeds (unsigned 16) (FloatT f32) = true.
Proof. repeat split; vm_compute; reflexivity. Qed.

Example C89_part_ex : in_type (FloatT f64) (half (-5)) /\ cast (FloatT f64) (signed_t 8) (half (-5)) = Ok (-2) /\
  cast (signed_t 8) (FloatT f64) (-2) = Ok (half (-4)).
Proof. repeat split; vm_compute; reflexivity. Qed.

Print Assumptions C89_astype.
Print Assumptions C89_round_trip.
Print Assumptions C89_only_those.
Print Assumptions C89_integer_part.

(** The twelve integer types, in the order of [dtypes], hold exactly these values: u8, u16, u32,
    u64, u128, usize, i8, i16, i32, i64, i128, isize. *)
Definition ranges : list (Z * Z) :=
  [(0, 255); (0, 65535); (0, 4294967295); (0, 18446744073709551615);
   (0, 340282366920938463463374607431768211455); (0, 18446744073709551615);
   (-128, 127); (-32768, 32767); (-2147483648, 2147483647);
   (-9223372036854775808, 9223372036854775807);
   (-170141183460469231731687303715884105728, 170141183460469231731687303715884105727);
   (-9223372036854775808, 9223372036854775807)].

(** an integer is converted to an integer type if and only if it is a value of the type *)
Theorem C89_ranges : forall k d lo hi, nth_error dtypes k = Some d -> nth_error ranges k = Some (lo, hi) ->
  forall a b (x : Z), lo <= x <= hi <-> exists y, cast (IntT a b) d x = Ok y.
Proof.
  intros k d lo hi D R a b x.
  assert (E : d = IntT lo hi).
  { do 12 (destruct k as [|k]; [cbn in D, R; injection D as <-; injection R as <- <-; reflexivity|cbn [nth_error ranges dtypes] in D, R]).
    destruct k; discriminate. }
  rewrite E. cbn [cast carrier]. destruct (checked_spec lo hi x) as [[B ->]|[B ->]]; split; intros H; try assumption; try contradiction; eauto.
  destruct H; discriminate.
Qed.
Print Assumptions C89_ranges.
Example C89_ranges_ex : nth_error dtypes 6 = Some (signed_t 8) /\ cast (IntT 0 1000) (signed_t 8) 127 = Ok 127 /\ cast (IntT 0 1000) (signed_t 8) 128 = Panic.
Proof. repeat split. Qed.
