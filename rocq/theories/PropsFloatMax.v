(** PropsFloatMax.v: what max, min and the magnitude variants return on arrays of floating-point
    numbers that may contain infinities and NaN (C64; portable build). *)
From Coq Require Import List Arith Lia Bool ZArith SpecFloat.
From Verif Require Import Base Spec Layout SpecFacts Views Kernels Access HeapFacts Reduce ReduceFacts Chain ChainFacts PropsOps PropsReduce.
Import ListNotations.
Open Scope res_scope.

Definition is_nan (x : spec_float) : bool := match x with S754_nan => true | _ => false end.

(** ** what is claimed about the numbers *)
(** r is start unless a number exceeds it; otherwise r is the first of the greatest numbers; NaN is passed over *)
Definition greatest (start : spec_float) (vs : list spec_float) (r : spec_float) : Prop :=
  ((forall x, In x vs -> SFltb start x = false) /\ r = start) \/
  (exists p q, vs = p ++ r :: q /\ SFltb start r = true /\ (forall x, In x p -> is_nan x = false -> SFltb x r = true) /\ forall x, In x q -> SFltb r x = false).
Definition least (start : spec_float) (vs : list spec_float) (r : spec_float) : Prop :=
  ((forall x, In x vs -> SFltb x start = false) /\ r = start) \/
  (exists p q, vs = p ++ r :: q /\ SFltb r start = true /\ (forall x, In x p -> is_nan x = false -> SFltb r x = true) /\ forall x, In x q -> SFltb x r = false).

(** for magnitudes the numbers up to the last NaN do not count, and start only if there is no NaN *)
Definition greatest_mag (start : spec_float) (vs : list spec_float) (r : spec_float) : Prop :=
  exists p q, vs = p ++ q /\ (forall x, In x q -> is_nan x = false) /\ (p = [] \/ exists p', p = p' ++ [S754_nan]) /\
    match p, q with
    | [], _ => (r = start \/ exists x, In x q /\ r = SFabs x) /\ SFltb r start = false /\ forall x, In x q -> SFltb r (SFabs x) = false
    | _, [] => r = S754_nan
    | _, _ => (exists x, In x q /\ r = SFabs x) /\ forall x, In x q -> SFltb r (SFabs x) = false
    end.
Definition least_mag (start : spec_float) (vs : list spec_float) (r : spec_float) : Prop :=
  exists p q, vs = p ++ q /\ (forall x, In x q -> is_nan x = false) /\ (p = [] \/ exists p', p = p' ++ [S754_nan]) /\
    match p, q with
    | [], _ => (r = start \/ exists x, In x q /\ r = SFabs x) /\ SFltb start r = false /\ forall x, In x q -> SFltb (SFabs x) r = false
    | _, [] => r = S754_nan
    | _, _ => (exists x, In x q /\ r = SFabs x) /\ forall x, In x q -> SFltb (SFabs x) r = false
    end.

(** the element operation g from start turns the elements vs of an array, or of a fibre, into an r with P vs r *)
Definition yields {T} (g : T -> T -> res T) (start : T) (P : list T -> T -> Prop) : Prop :=
  forall (h : heap T) blk n a, live h blk n -> chain blk n false a -> length (a_shape a) <= MAX_DIMS ->
  (exists vs h' r v, elems h a = Ok vs /\ nd_reduce g start h a = Ok (h', r) /\ fresh_result h h' r [] (fun _ => Ok v) /\ P vs v) /\
  (forall axes, let nd := length (a_shape a) in axes_in nd axes -> NoDup (axes_of nd axes) ->
     let A := axes_of nd axes in
     exists h' r val, nd_reduce_along g start h a axes = Ok (h', r) /\ fresh_result h h' r (drop_axes A (a_shape a)) val /\
       forall o, in_range o (drop_axes A (a_shape a)) -> exists vs v, mapM (get h a) (fibre A (a_shape a) o) = Ok vs /\ val o = Ok v /\ P vs v).

Lemma yields_of {T} (g : T -> T -> res T) start P : (forall vs, exists r, foldM g vs start = Ok r /\ P vs r) -> yields g start P.
Proof.
  intros H h blk n a LV C MD. pose proof (chain_valid _ _ _ _ _ LV C) as V.
  pose proof (chain_inv _ _ _ _ C) as I. destruct (i_nb _ _ _ _ I eq_refl) as (PO & _). apply pos_prod in PO. split.
  - destruct (C19_fold_partial T g h blk n a start LV (or_introl C) MD) as (vs & E & K & _). destruct (H vs) as (v & Ev & PV). destruct (K v Ev) as (h' & r & Er & F). eauto 9.
  - intros axes nd IN ND A.
    assert (VAL : forall o, in_range o (drop_axes A (a_shape a)) -> exists vs v, mapM (get h a) (fibre A (a_shape a) o) = Ok vs /\ (vs <- mapM (get h a) (fibre A (a_shape a) o) ;; foldM g vs start) = Ok v /\ P vs v).
    { intros o Ro. destruct (mapM_Ok (get h a) (fibre A (a_shape a) o)) as (vs & E).
      { intros idx J. apply V. unfold fibre in J. apply filter_In in J as [J _]. now apply in_indices. }
      destruct (H vs) as (v & Ev & PV). exists vs, v. rewrite E. auto. }
    destruct (C20_reduce_along T g h a start axes V MD PO IN ND) as [K _]. destruct K as (h' & r & E & F).
    { intros o Ro. destruct (VAL o Ro) as (vs & v & _ & Ev & _). eauto. }
    eexists h', r, _. split; [exact E|]. split; [exact F|]. exact VAL.
Qed.

(** ** SFltb orders the numbers other than NaN like triples of integers, lexicographically *)
Definition key (x : spec_float) : option (Z * Z * Z) :=
  match x with
  | S754_nan => None
  | S754_infinity true => Some (-2, 0, 0)%Z
  | S754_infinity false => Some (2, 0, 0)%Z
  | S754_zero _ => Some (0, 0, 0)%Z
  | S754_finite true m e => Some (-1, - e, Z.neg m)%Z
  | S754_finite false m e => Some (1, e, Z.pos m)%Z
  end.
Definition lex (x y : Z * Z * Z) : Prop :=
  let '(a, b, c) := x in let '(a', b', c') := y in (a < a' \/ a = a' /\ (b < b' \/ b = b' /\ c < c'))%Z.
Lemma SFltb_key x y : SFltb x y = true <-> match key x, key y with Some a, Some b => lex a b | _, _ => False end.
Proof.
  destruct x as [[|]|[|]| |[|] m e], y as [[|]|[|]| |[|] m' e']; unfold SFltb, SFcompare; cbn [key]; unfold lex;
    try (split; [intros _; lia|reflexivity]); try (split; [discriminate|lia]); try (split; [discriminate|tauto]).
  - destruct (Z.compare_spec e e') as [Q|Q|Q]; cbn [CompOpp].
    + rewrite Pos.compare_cont_spec. destruct (Pos.compare_spec m m'); cbn [CompOpp]; split; intros; try discriminate; try reflexivity; lia.
    + split; [discriminate|lia].
    + split; [intros _; lia|reflexivity].
  - destruct (Z.compare_spec e e') as [Q|Q|Q].
    + rewrite Pos.compare_cont_spec. destruct (Pos.compare_spec m m'); split; intros; try discriminate; try reflexivity; lia.
    + split; [intros _; lia|reflexivity].
    + split; [discriminate|lia].
Qed.
Lemma lex_dec x y : {lex x y} + {~ lex x y}.
Proof.
  destruct x as [[a b] c], y as [[a' b'] c']. unfold lex. destruct (Z_lt_dec a a'); [left; lia|]. destruct (Z.eq_dec a a'); [|right; lia].
  destruct (Z_lt_dec b b'); [left; lia|]. destruct (Z.eq_dec b b'); [|right; lia]. destruct (Z_lt_dec c c'); [left; lia|right; lia].
Qed.
Lemma SFltb_false x y : SFltb x y = false <-> match key x, key y with Some a, Some b => ~ lex a b | _, _ => True end.
Proof.
  pose proof (SFltb_key x y) as H. destruct (SFltb x y); split; intros Q; try reflexivity; try discriminate.
  - destruct (key x) as [a|], (key y) as [b|]; try (destruct (proj1 H eq_refl)). destruct Q. now apply H.
  - destruct (key x) as [a|], (key y) as [b|]; auto. intros L. now apply H in L.
Qed.
Lemma key_nan x : is_nan x = false <-> exists a, key x = Some a.
Proof. destruct x as [[|]|[|]| |[|] m e]; cbn; split; intros H; try discriminate; eauto; now destruct H. Qed.
Lemma key_abs x : is_nan (SFabs x) = is_nan x.
Proof. now destruct x. Qed.
Ltac fl := repeat match goal with
  | H : SFltb _ _ = true |- _ => apply SFltb_key in H
  | H : SFltb _ _ = false |- _ => apply SFltb_false in H
  | H : is_nan _ = false |- _ => apply key_nan in H as [? H]
  | |- SFltb _ _ = true => apply SFltb_key
  | |- SFltb _ _ = false => apply SFltb_false
  end.
Ltac keys := repeat match goal with
  | H : context [match key ?x with _ => _ end] |- _ => destruct (key x) as [[[? ?] ?]|]
  | |- context [match key ?x with _ => _ end] => destruct (key x) as [[[? ?] ?]|]
  end; unfold lex in *; try tauto; try congruence.

Lemma lt_trans x y z : SFltb x y = true -> SFltb y z = true -> SFltb x z = true.
Proof. intros. fl. keys. lia. Qed.
Lemma lt_nle x y z : SFltb x y = true -> SFltb z y = false -> is_nan z = false -> SFltb x z = true.
Proof. intros H1 H2 H3. fl. rewrite H3 in *. destruct x0 as [[? ?] ?]. keys. lia. Qed.
Lemma nle_lt x y z : SFltb y x = false -> SFltb y z = true -> is_nan x = false -> SFltb x z = true.
Proof. intros H1 H2 H3. fl. rewrite H3 in *. destruct x0 as [[? ?] ?]. keys. lia. Qed.
Lemma lt_asym x y : SFltb x y = true -> SFltb y x = false.
Proof. intros. fl. keys. lia. Qed.
Lemma lt_irrefl x : SFltb x x = false.
Proof. fl. keys. lia. Qed.
Lemma lt_not_nan x y : SFltb x y = true -> is_nan x = false /\ is_nan y = false.
Proof. intros H. fl. split; apply key_nan; destruct (key x), (key y); eauto; tauto. Qed.

Lemma fold_greatest : forall vs start, exists r, foldM (partial_max SFltb) vs start = Ok r /\ (is_nan start = false -> greatest start vs r).
Proof.
  induction vs as [|x vs IH]; intros start; cbn [foldM]; [exists start; split; [reflexivity|]; intros _; left; split; [intros ? []|reflexivity]|].
  unfold partial_max at 1. cbn [bind]. destruct (SFltb start x) eqn:Q.
  - destruct (IH x) as (r & E & G). exists r. split; [exact E|]. intros _. specialize (G (proj2 (lt_not_nan _ _ Q))). right. destruct G as [[H ->]|(p & q & -> & L & Hp & Hq)].
    + exists [], vs. split; [reflexivity|]. split; [exact Q|]. split; [intros ? []|exact H].
    + exists (x :: p), q. split; [reflexivity|]. split; [eapply lt_trans; eauto|]. split; [|exact Hq]. intros y [<-|J] N; [exact L|auto].
  - destruct (IH start) as (r & E & G). exists r. split; [exact E|]. intros NS. specialize (G NS). destruct G as [[H ->]|(p & q & -> & L & Hp & Hq)].
    + left. split; [|reflexivity]. intros y [<-|J]; auto.
    + right. exists (x :: p), q. split; [reflexivity|]. split; [exact L|]. split; [|exact Hq]. intros y [<-|J] N; [|auto]. eapply nle_lt; eauto.
Qed.
Lemma fold_least : forall vs start, exists r, foldM (partial_min SFltb) vs start = Ok r /\ (is_nan start = false -> least start vs r).
Proof.
  induction vs as [|x vs IH]; intros start; cbn [foldM]; [exists start; split; [reflexivity|]; intros _; left; split; [intros ? []|reflexivity]|].
  unfold partial_min at 1. cbn [bind]. destruct (SFltb x start) eqn:Q.
  - destruct (IH x) as (r & E & G). exists r. split; [exact E|]. intros _. specialize (G (proj1 (lt_not_nan _ _ Q))). right. destruct G as [[H ->]|(p & q & -> & L & Hp & Hq)].
    + exists [], vs. split; [reflexivity|]. split; [exact Q|]. split; [intros ? []|exact H].
    + exists (x :: p), q. split; [reflexivity|]. split; [eapply lt_trans; eauto|]. split; [|exact Hq]. intros y [<-|J] N; [exact L|auto].
  - destruct (IH start) as (r & E & G). exists r. split; [exact E|]. intros NS. specialize (G NS). destruct G as [[H ->]|(p & q & -> & L & Hp & Hq)].
    + left. split; [|reflexivity]. intros y [<-|J]; auto.
    + right. exists (x :: p), q. split; [reflexivity|]. split; [exact L|]. split; [|exact Hq]. intros y [<-|J] N; [|auto]. eapply lt_nle; eauto.
Qed.

(** magnitudes *)
Definition okabs (x : spec_float) : res spec_float := Ok (SFabs x).
Lemma split_nan : forall vs : list spec_float, exists p q, vs = p ++ q /\ (forall x, In x q -> is_nan x = false) /\ (p = [] \/ exists p', p = p' ++ [S754_nan]).
Proof.
  induction vs as [|x vs (p & q & -> & H & P)] using rev_ind; [exists [], []; repeat split; [intros ? []|now left]|].
  destruct (is_nan x) eqn:N.
  - exists ((p ++ q) ++ [x]), []. rewrite app_nil_r. split; [reflexivity|]. split; [intros ? []|]. right. exists (p ++ q). now destruct x.
  - exists p, (q ++ [x]). split; [now rewrite app_assoc|]. split; [|exact P]. intros y J. apply in_app_iff in J as [J|[<-|[]]]; auto.
Qed.
Lemma foldM_app {T} (g : T -> T -> res T) l m : forall acc, foldM g (l ++ m) acc = (r <- foldM g l acc ;; foldM g m r).
Proof. induction l as [|x l IH]; intros acc; cbn [app foldM]; [reflexivity|]. destruct (g x acc); cbn [bind]; auto. Qed.

Lemma mag_clean_max : forall q start, (forall x, In x q -> is_nan x = false) -> is_nan start = false -> exists r, foldM (partial_max_magnitude SFltb okabs) q start = Ok r /\
  (r = start \/ exists x, In x q /\ r = SFabs x) /\ SFltb r start = false /\ forall x, In x q -> SFltb r (SFabs x) = false.
Proof.
  induction q as [|x q IH]; intros start H NS; cbn [foldM]; [exists start; split; [reflexivity|]; split; [now left|]; split; [apply lt_irrefl|intros ? []]|].
  unfold partial_max_magnitude at 1, okabs at 1. cbn [bind]. assert (NX : is_nan (SFabs x) = false) by (rewrite key_abs; apply H; now left).
  destruct (SFltb (SFabs x) start) eqn:Q.
  - destruct (IH start) as (r & E & R1 & R2 & R3); [intros; apply H; now right|exact NS|]. exists r. split; [exact E|]. split; [destruct R1 as [->|(y & J & ->)]; [now left|right; exists y; split; [now right|reflexivity]]|].
    split; [exact R2|]. intros y [<-|J]; [|auto]. apply lt_asym. assert (NR : is_nan r = false) by (destruct R1 as [->|(y & J & ->)]; [exact NS|rewrite key_abs; apply H; now right]). eapply lt_nle; eauto.
  - destruct (IH (SFabs x)) as (r & E & R1 & R2 & R3); [intros; apply H; now right|exact NX|]. exists r. split; [exact E|].
    assert (NR : is_nan r = false) by (destruct R1 as [->|(y & J & ->)]; [exact NX|rewrite key_abs; apply H; now right]).
    split; [right; destruct R1 as [->|(y & J & ->)]; [exists x; split; [now left|reflexivity]|exists y; split; [now right|reflexivity]]|]. split.
    + destruct (SFltb r start) eqn:Z; [|reflexivity]. enough (SFltb r (SFabs x) = true) by congruence. eapply lt_nle; eauto.
    + intros y [<-|J]; auto.
Qed.
Lemma mag_clean_min : forall q start, (forall x, In x q -> is_nan x = false) -> is_nan start = false -> exists r, foldM (partial_min_magnitude SFltb okabs) q start = Ok r /\
  (r = start \/ exists x, In x q /\ r = SFabs x) /\ SFltb start r = false /\ forall x, In x q -> SFltb (SFabs x) r = false.
Proof.
  induction q as [|x q IH]; intros start H NS; cbn [foldM]; [exists start; split; [reflexivity|]; split; [now left|]; split; [apply lt_irrefl|intros ? []]|].
  unfold partial_min_magnitude at 1, okabs at 1. cbn [bind]. assert (NX : is_nan (SFabs x) = false) by (rewrite key_abs; apply H; now left).
  destruct (SFltb start (SFabs x)) eqn:Q.
  - destruct (IH start) as (r & E & R1 & R2 & R3); [intros; apply H; now right|exact NS|]. exists r. split; [exact E|]. split; [destruct R1 as [->|(y & J & ->)]; [now left|right; exists y; split; [now right|reflexivity]]|].
    split; [exact R2|]. intros y [<-|J]; [|auto]. apply lt_asym. assert (NR : is_nan r = false) by (destruct R1 as [->|(y & J & ->)]; [exact NS|rewrite key_abs; apply H; now right]). eapply nle_lt; eauto.
  - destruct (IH (SFabs x)) as (r & E & R1 & R2 & R3); [intros; apply H; now right|exact NX|]. exists r. split; [exact E|].
    assert (NR : is_nan r = false) by (destruct R1 as [->|(y & J & ->)]; [exact NX|rewrite key_abs; apply H; now right]).
    split; [right; destruct R1 as [->|(y & J & ->)]; [exists x; split; [now left|reflexivity]|exists y; split; [now right|reflexivity]]|]. split.
    + destruct (SFltb start r) eqn:Z; [|reflexivity]. enough (SFltb (SFabs x) r = true) by congruence. eapply nle_lt; eauto.
    + intros y [<-|J]; auto.
Qed.

Lemma mag_total_max : forall vs start, exists r, foldM (partial_max_magnitude SFltb okabs) vs start = Ok r.
Proof. induction vs as [|x vs IH]; intros start; cbn [foldM]; [eauto|]. unfold partial_max_magnitude at 1, okabs at 1. cbn [bind]. apply IH. Qed.
Lemma mag_total_min : forall vs start, exists r, foldM (partial_min_magnitude SFltb okabs) vs start = Ok r.
Proof. induction vs as [|x vs IH]; intros start; cbn [foldM]; [eauto|]. unfold partial_min_magnitude at 1, okabs at 1. cbn [bind]. apply IH. Qed.
Lemma nan_lt x : SFltb x S754_nan = false /\ SFltb S754_nan x = false.
Proof. split; [now destruct x as [[|]|[|]| |[|] m e]|reflexivity]. Qed.

Lemma fold_greatest_mag vs start : is_nan start = false -> exists r, foldM (partial_max_magnitude SFltb okabs) vs start = Ok r /\ greatest_mag start vs r.
Proof.
  intros NS. destruct (split_nan vs) as (p & q & -> & H & P). destruct P as [->|(p' & ->)].
  - destruct (mag_clean_max q start H NS) as (r & E & R). exists r. split; [exact E|]. exists [], q. split; [reflexivity|]. split; [exact H|]. split; [now left|exact R].
  - destruct (mag_total_max p' start) as (r0 & E0). rewrite foldM_app, foldM_app, E0. cbn [bind foldM]. unfold partial_max_magnitude at 1, okabs at 1. cbn [SFabs bind]. rewrite (proj2 (nan_lt r0)). cbn [bind].
    destruct q as [|x q].
    + exists S754_nan. split; [reflexivity|]. exists (p' ++ [S754_nan]), []. split; [reflexivity|]. split; [intros ? []|]. split; [right; eauto|]. now destruct p'.
    + cbn [foldM]. unfold partial_max_magnitude at 1, okabs at 1. cbn [bind]. rewrite (proj1 (nan_lt (SFabs x))). cbn [bind].
      destruct (mag_clean_max q (SFabs x)) as (r & E & R1 & R2 & R3); [intros; apply H; now right|rewrite key_abs; apply H; now left|].
      exists r. split; [exact E|]. exists (p' ++ [S754_nan]), (x :: q). split; [reflexivity|]. split; [exact H|]. split; [right; eauto|].
      assert (G : (exists y, In y (x :: q) /\ r = SFabs y) /\ forall y, In y (x :: q) -> SFltb r (SFabs y) = false).
      { split; [destruct R1 as [->|(y & J & ->)]; [exists x; split; [now left|reflexivity]|exists y; split; [now right|reflexivity]]|]. intros y [<-|J]; auto. }
      now destruct p'.
Qed.
Lemma fold_least_mag vs start : is_nan start = false -> exists r, foldM (partial_min_magnitude SFltb okabs) vs start = Ok r /\ least_mag start vs r.
Proof.
  intros NS. destruct (split_nan vs) as (p & q & -> & H & P). destruct P as [->|(p' & ->)].
  - destruct (mag_clean_min q start H NS) as (r & E & R). exists r. split; [exact E|]. exists [], q. split; [reflexivity|]. split; [exact H|]. split; [now left|exact R].
  - destruct (mag_total_min p' start) as (r0 & E0). rewrite foldM_app, foldM_app, E0. cbn [bind foldM]. unfold partial_min_magnitude at 1, okabs at 1. cbn [SFabs bind]. rewrite (proj1 (nan_lt r0)). cbn [bind].
    destruct q as [|x q].
    + exists S754_nan. split; [reflexivity|]. exists (p' ++ [S754_nan]), []. split; [reflexivity|]. split; [intros ? []|]. split; [right; eauto|]. now destruct p'.
    + cbn [foldM]. unfold partial_min_magnitude at 1, okabs at 1. cbn [bind]. rewrite (proj2 (nan_lt (SFabs x))). cbn [bind].
      destruct (mag_clean_min q (SFabs x)) as (r & E & R1 & R2 & R3); [intros; apply H; now right|rewrite key_abs; apply H; now left|].
      exists r. split; [exact E|]. exists (p' ++ [S754_nan]), (x :: q). split; [reflexivity|]. split; [exact H|]. split; [right; eauto|].
      assert (G : (exists y, In y (x :: q) /\ r = SFabs y) /\ forall y, In y (x :: q) -> SFltb (SFabs y) r = false).
      { split; [destruct R1 as [->|(y & J & ->)]; [exists x; split; [now left|reflexivity]|exists y; split; [now right|reflexivity]]|]. intros y [<-|J]; auto. }
      now destruct p'.
Qed.

(** ** the theorems; start is -MAX, MAX, -MAX (0 along axes) and MAX in the library *)
Theorem C64_max : forall start, is_nan start = false -> yields (partial_max SFltb) start (greatest start).
Proof. intros start N. apply yields_of. intros vs. destruct (fold_greatest vs start) as (r & E & G). eauto. Qed.
Print Assumptions C64_max.
Theorem C64_min : forall start, is_nan start = false -> yields (partial_min SFltb) start (least start).
Proof. intros start N. apply yields_of. intros vs. destruct (fold_least vs start) as (r & E & G). eauto. Qed.
Print Assumptions C64_min.
Theorem C64_max_magnitude : forall start, is_nan start = false -> yields (partial_max_magnitude SFltb okabs) start (greatest_mag start).
Proof. intros start N. apply yields_of. intros vs. now apply fold_greatest_mag. Qed.
Print Assumptions C64_max_magnitude.
Theorem C64_min_magnitude : forall start, is_nan start = false -> yields (partial_min_magnitude SFltb okabs) start (least_mag start).
Proof. intros start N. apply yields_of. intros vs. now apply fold_least_mag. Qed.
Print Assumptions C64_min_magnitude.

(** the specifications leave no choice *)
Theorem C64_max_determined : forall start vs r1 r2, greatest start vs r1 -> greatest start vs r2 -> r1 = r2.
Proof.
  intros start vs r1 r2 [[H1 ->]|(p1 & q1 & E1 & S1 & P1 & Q1)] [[H2 ->]|(p2 & q2 & E2 & S2 & P2 & Q2)]; [reflexivity| | |].
  - enough (SFltb start r2 = false) by congruence. apply H1. rewrite E2, in_app_iff. right. now left.
  - enough (SFltb start r1 = false) by congruence. apply H2. rewrite E1, in_app_iff. right. now left.
  - pose proof (proj2 (lt_not_nan _ _ S1)) as N1. pose proof (proj2 (lt_not_nan _ _ S2)) as N2.
    assert (G : forall p1 p2 q1 q2 (r1 r2 : spec_float), p1 ++ r1 :: q1 = p2 ++ r2 :: q2 -> length p1 < length p2 -> In r1 p2 /\ In r2 q1).
    { clear. induction p1 as [|x p1 IH]; intros [|y p2] q1 q2 r1 r2 E L; cbn [app length] in *; try lia; injection E as -> E.
      - split; [now left|]. rewrite E, in_app_iff. right. now left.
      - destruct (IH p2 q1 q2 r1 r2 E ltac:(lia)) as [J1 J2]. split; [now right|exact J2]. }
    rewrite E1 in E2. destruct (lt_eq_lt_dec (length p1) (length p2)) as [[L|L]|L].
    + destruct (G _ _ _ _ _ _ E2 L) as [J1 J2]. specialize (P2 r1 J1 N1). specialize (Q1 r2 J2). congruence.
    + clear -E2 L. revert p2 L E2. induction p1 as [|x p1 IH]; intros [|y p2] L E2; cbn [app length] in *; try lia; injection E2; [auto|]. intros E ->. apply (IH p2); [lia|exact E].
    + destruct (G _ _ _ _ _ _ (eq_sym E2) L) as [J1 J2]. specialize (P1 r2 J1 N2). specialize (Q2 r1 J2). congruence.
Qed.
Print Assumptions C64_max_determined.

Theorem C64_min_determined : forall start vs r1 r2, least start vs r1 -> least start vs r2 -> r1 = r2.
Proof.
  intros start vs r1 r2 [[H1 ->]|(p1 & q1 & E1 & S1 & P1 & Q1)] [[H2 ->]|(p2 & q2 & E2 & S2 & P2 & Q2)]; [reflexivity| | |].
  - enough (SFltb r2 start = false) by congruence. apply H1. rewrite E2, in_app_iff. right. now left.
  - enough (SFltb r1 start = false) by congruence. apply H2. rewrite E1, in_app_iff. right. now left.
  - pose proof (proj1 (lt_not_nan _ _ S1)) as N1. pose proof (proj1 (lt_not_nan _ _ S2)) as N2.
    assert (G : forall p1 p2 q1 q2 (r1 r2 : spec_float), p1 ++ r1 :: q1 = p2 ++ r2 :: q2 -> length p1 < length p2 -> In r1 p2 /\ In r2 q1).
    { clear. induction p1 as [|x p1 IH]; intros [|y p2] q1 q2 r1 r2 E L; cbn [app length] in *; try lia; injection E as -> E.
      - split; [now left|]. rewrite E, in_app_iff. right. now left.
      - destruct (IH p2 q1 q2 r1 r2 E ltac:(lia)) as [J1 J2]. split; [now right|exact J2]. }
    rewrite E1 in E2. destruct (lt_eq_lt_dec (length p1) (length p2)) as [[L|L]|L].
    + destruct (G _ _ _ _ _ _ E2 L) as [J1 J2]. specialize (P2 r1 J1 N1). specialize (Q1 r2 J2). congruence.
    + clear -E2 L. revert p2 L E2. induction p1 as [|x p1 IH]; intros [|y p2] L E2; cbn [app length] in *; try lia; injection E2; [auto|]. intros E ->. apply (IH p2); [lia|exact E].
    + destruct (G _ _ _ _ _ _ (eq_sym E2) L) as [J1 J2]. specialize (P1 r2 J1 N2). specialize (Q2 r1 J2). congruence.
Qed.
Print Assumptions C64_min_determined.

(** f32: NaN is passed over by max and min; magnitudes forget what precedes it *)
Definition fl (z : Z) : spec_float := match z with Z0 => S754_zero false | Zpos p => S754_finite false p 0 | Zneg p => S754_finite true p 0 end.
Definition nan_data : heap spec_float := [Some [S754_nan; fl 3; fl (-9); S754_nan; fl (-2); fl 1]].
Example C64_ex : let a := fresh_arr 0 6 [2; 3] in chain 0 6 false a /\ live nan_data 0 6 /\ is_nan f32_min = false /\
  (exists h' r, nd_reduce (partial_max SFltb) f32_min nan_data a = Ok (h', r) /\ get h' r [] = Ok (fl 3)) /\
  (exists h' r, nd_reduce (partial_min SFltb) f32_max nan_data a = Ok (h', r) /\ get h' r [] = Ok (fl (-9))) /\
  (exists h' r, nd_reduce (partial_max_magnitude SFltb okabs) f32_min nan_data a = Ok (h', r) /\ get h' r [] = Ok (fl 2)) /\
  (exists h' r, nd_reduce_along (partial_max_magnitude SFltb okabs) (fl 0) nan_data a [0]%Z = Ok (h', r) /\ elems h' r = Ok [S754_nan; fl 3; fl 9]).
Proof. split; [apply Ch_new; cbn; lia|]. split; [eexists; split; reflexivity|]. split; [reflexivity|]. repeat split; eexists _, _; split; vm_compute; reflexivity. Qed.
