(** PropsNumeric.v: C40 (arange, linspace) and C41 (randint). *)
From Coq Require Import List Arith Lia Bool ZArith Floats.SpecFloat.
From Verif Require Import Base Spec Layout SpecFacts LayoutFacts Views HeapFacts KernelFacts OpFacts Numeric NumericFacts.
Import ListNotations.
Open Scope Z_scope.

(** ** Specification *)
(** x comes before the end of a range walked in steps of the given sign *)
Definition before (step x stop : Z) : Prop := if 0 <? step then x < stop else stop < x.

(** l is start, start + step, start + 2 step, ... up to but excluding stop *)
Definition progression (start stop step : Z) (l : list Z) : Prop :=
  (forall i, (i < length l)%nat -> nth_error l i = Some (start + Z.of_nat i * step)) /\
  (forall i, (i < length l)%nat <-> before step (start + Z.of_nat i * step) stop).

(** a is a new one-dimensional array with the elements l; nothing else has changed *)
Definition new_list {T} (h h' : heap T) (a : arr) (l : list T) : Prop :=
  a_shape a = [length l] /\ elems h' a = Ok l /\ a_blk a = length h /\
  (forall b o, (b < length h)%nat -> load h' b o = load h b o).

Lemma from_buffer_new {T} (h : heap T) (l : list T) :
  let '(h', a) := from_buffer h [length l] l in new_list h h' a l.
Proof.
  unfold from_buffer, alloc. split; [reflexivity|]. split; [|split; [reflexivity|]].
  2: { intros. now apply load_app_old. }
  apply fresh_elems. cbn. lia.
Qed.

(** ** Counting steps *)
Lemma cdiv_before a b i : b <> 0 -> 0 <= a * b -> (0 <= i /\ i < cdiv a b <-> 0 <= i /\ before b (i * b) a).
Proof.
  intros Nb S. unfold cdiv, before.
  pose proof (Z.div_mod (- a) b Nb) as D. set (q := - a / b) in *. set (r := (- a) mod b) in *.
  destruct (Z.ltb_spec 0 b) as [P|P].
  - pose proof (Z.mod_pos_bound (- a) b P) as B. fold r in B. split; intros [H0 H1]; (split; [exact H0|]); nia.
  - pose proof (Z.mod_neg_bound (- a) b ltac:(lia)) as B. fold r in B. split; intros [H0 H1]; (split; [exact H0|]); nia.
Qed.

Lemma cdiv_nonneg a b : b <> 0 -> 0 <= a * b -> 0 <= cdiv a b.
Proof.
  intros Nb S. unfold cdiv.
  pose proof (Z.div_mod (- a) b Nb) as D. set (q := - a / b) in *. set (r := (- a) mod b) in *.
  destruct (Z_lt_le_dec 0 b) as [P|P].
  - pose proof (Z.mod_pos_bound (- a) b P) as B. fold r in B. nia.
  - pose proof (Z.mod_neg_bound (- a) b ltac:(lia)) as B. fold r in B. nia.
Qed.

Lemma progression_count start stop step : step <> 0 -> 0 <= (stop - start) * step ->
  progression start stop step
    (map (fun i => start + Z.of_nat i * step) (seq 0 (Z.to_nat (cdiv (stop - start) step)))).
Proof.
  intros N S. pose proof (cdiv_nonneg _ _ N S) as C. split.
  - intros i H. rewrite map_length, seq_length in H.
    rewrite nth_error_map.
    assert (nth_error (seq 0 (Z.to_nat (cdiv (stop - start) step))) i = Some i) as ->; [|reflexivity].
    rewrite (nth_error_nth' _ 0%nat) by (rewrite seq_length; exact H). now rewrite seq_nth by exact H.
  - intros i. rewrite map_length, seq_length.
    pose proof (cdiv_before (stop - start) step (Z.of_nat i) N S) as B. unfold before in *.
    destruct (0 <? step); split; intros; [destruct B as [B _]|destruct B as [_ B]|destruct B as [B _]|destruct B as [_ B]];
      (assert (Hi : 0 <= Z.of_nat i) by lia); try (specialize (B ltac:(split; lia))); lia.
Qed.

Lemma list_ext {A} (l l' : list A) : (forall i, nth_error l i = nth_error l' i) -> l = l'.
Proof.
  revert l'; induction l as [|x l IH]; intros [|y l'] H; [reflexivity| | |];
    pose proof (H O) as H0; cbn in H0; try discriminate.
  injection H0 as ->. f_equal. apply IH. intros i. exact (H (S i)).
Qed.

Lemma progression_unique start stop step l l' :
  progression start stop step l -> progression start stop step l' -> l = l'.
Proof.
  intros [A1 A2] [B1 B2].
  assert (L : length l = length l').
  { destruct (Nat.lt_trichotomy (length l) (length l')) as [X|[X|X]]; [|exact X|].
    - apply B2 in X. apply A2 in X. lia.
    - apply A2 in X. apply B2 in X. lia. }
  apply list_ext. intros i. destruct (Nat.lt_ge_cases i (length l)) as [H|H].
  - rewrite A1, B1 by lia. reflexivity.
  - rewrite !(proj2 (nth_error_None _ _)) by lia. reflexivity.
Qed.

Lemma mapM_all {A B} (f : A -> res B) (g : A -> B) l :
  (forall x, In x l -> f x = Ok (g x)) -> mapM f l = Ok (map g l).
Proof.
  induction l as [|x l IH]; intros H; [reflexivity|]. cbn [mapM map].
  rewrite (H x (or_introl eq_refl)), IH by (intros; apply H; now right). reflexivity.
Qed.

(** ** C40: arange over integer types *)
Lemma to_float_rep f lo hi v : std f -> Z.abs v < 2 ^ 24 -> rep (to_float (int_type lo hi f) v) v.
Proof.
  intros S V. pose proof (std_bounds f S). pose proof (std_pow f S).
  unfold to_float. cbn [n_float n_to_f32 int_type].
  apply convert_rep; try lia. apply of_Z_rep; cbn [prec emax f32]; lia.
Qed.

Lemma int_count lo hi f start stop step : std f -> lo <= stop - start <= hi ->
  Z.abs (stop - start) < 2 ^ 24 -> Z.abs step < 2 ^ 24 -> step <> 0 ->
  arange_count (int_type lo hi f) start stop step
    = if 0 <=? cdiv (stop - start) step then Ok (cdiv (stop - start) step) else Panic.
Proof.
  intros S R D P N. pose proof (std_bounds f S). pose proof (std_pow f S).
  unfold arange_count. cbn [n_sub int_type]. unfold checked.
  rewrite (proj2 (Z.leb_le _ _) (proj1 R)), (proj2 (Z.leb_le _ _) (proj2 R)). cbn [andb bind].
  change (n_float (int_type lo hi f)) with f. unfold fdiv.
  apply ceil_div; try lia; apply to_float_rep; assumption.
Qed.

(** For every integer type, every start, stop and step whose difference and step are
    below 2^24 (the integers f32 holds exactly) the array is the documented sequence. *)
Theorem C40_arange_int_partial : forall lo hi f (h : heap Z) start stop step,
  std f -> lo <= 0 -> - lo <= hi + 1 ->
  lo <= start <= hi -> lo <= stop <= hi -> lo <= stop - start <= hi ->
  Z.abs (stop - start) < 2 ^ 24 -> Z.abs step < 2 ^ 24 -> step <> 0 ->
  0 <= (stop - start) * step ->
  exists h' a l, nd_arange_with_step (int_type lo hi f) h start stop step = Ok (h', a) /\
    new_list h h' a l /\ progression start stop step l.
Proof.
  intros lo hi f h start stop step S L0 LH R1 R2 R3 D P N DIR.
  set (l := map (fun i => start + Z.of_nat i * step) (seq 0 (Z.to_nat (cdiv (stop - start) step)))).
  pose proof (cdiv_nonneg _ _ N DIR) as C.
  unfold nd_arange_with_step, arange_data. rewrite int_count by assumption.
  rewrite (proj2 (Z.leb_le _ _) C). cbn [bind].
  rewrite (mapM_all _ (fun i => start + Z.of_nat i * step)).
  - cbn [bind]. fold l. pose proof (from_buffer_new h l) as F.
    destruct (from_buffer h [length l] l) as [h' a]. exists h', a, l.
    split; [reflexivity|]. split; [exact F|]. now apply progression_count.
  - intros i Hi. apply in_seq in Hi. destruct Hi as [_ Hi]. cbn [Nat.add] in Hi.
    assert (B : before step (Z.of_nat i * step) (stop - start))
      by (apply (proj1 (cdiv_before _ _ (Z.of_nat i) N DIR)); lia).
    unfold before in B.
    unfold arange_item. cbn [n_of_usize n_mul n_add int_type]. unfold checked.
    assert (I1 : lo <= Z.of_nat i <= hi) by (destruct (Z.ltb_spec 0 step); nia).
    assert (I2 : lo <= Z.of_nat i * step <= hi) by (destruct (Z.ltb_spec 0 step); nia).
    assert (I3 : lo <= Z.of_nat i * step + start <= hi) by (destruct (Z.ltb_spec 0 step); nia).
    rewrite (proj2 (Z.leb_le _ _) (proj1 I1)), (proj2 (Z.leb_le _ _) (proj2 I1)). cbn [andb bind].
    rewrite (proj2 (Z.leb_le _ _) (proj1 I2)), (proj2 (Z.leb_le _ _) (proj2 I2)). cbn [andb bind].
    rewrite (proj2 (Z.leb_le _ _) (proj1 I3)), (proj2 (Z.leb_le _ _) (proj2 I3)). cbn [andb bind].
    f_equal. lia.
Qed.
Print Assumptions C40_arange_int_partial.

Example C40_ex : exists h' a,
  nd_arange_with_step u8 [] 3 250 50 = Ok (h', a) /\ elems h' a = Ok [3; 53; 103; 153; 203].
Proof. eexists _, _. split; vm_compute; reflexivity. Qed.
Example C40_ex_down : exists h' a,
  nd_arange_with_step i64 [] 5 (-4) (-3) = Ok (h', a) /\ elems h' a = Ok [5; 2; -1].
Proof. eexists _, _. split; vm_compute; reflexivity. Qed.

(** A step of zero, or one that leads away from stop by at least one step, panics; the
    result is never a nonempty array. *)
Theorem C40_arange_int_wrong_way : forall lo hi f (h : heap Z) start stop step,
  std f -> lo <= stop - start <= hi -> Z.abs (stop - start) < 2 ^ 24 -> Z.abs step < 2 ^ 24 ->
  (step = 0 -> nd_arange_with_step (int_type lo hi f) h start stop step = Panic) /\
  ((stop - start) * step < 0 -> Z.abs step <= Z.abs (stop - start) ->
     nd_arange_with_step (int_type lo hi f) h start stop step = Panic) /\
  ((stop - start) * step < 0 -> Z.abs (stop - start) < Z.abs step ->
     exists h' a, nd_arange_with_step (int_type lo hi f) h start stop step = Ok (h', a) /\
       new_list h h' a []).
Proof.
  intros lo hi f h start stop step S R D P.
  assert (CD : forall a b, a * b < 0 -> cdiv a b = - (Z.abs a / Z.abs b)).
  { intros a b H. unfold cdiv. f_equal. destruct (Z_lt_le_dec a 0).
    - replace (Z.abs a) with (- a) by lia. rewrite (Z.abs_eq b) by nia. reflexivity.
    - rewrite (Z.abs_eq a) by lia. replace (Z.abs b) with (- b) by nia.
      rewrite <- (Z.div_opp_opp (- a) b) by nia. now rewrite Z.opp_involutive. }
  split; [|split].
  - intros ->. unfold nd_arange_with_step, arange_data, arange_count. cbn [n_sub int_type].
    unfold checked. rewrite (proj2 (Z.leb_le _ _) (proj1 R)), (proj2 (Z.leb_le _ _) (proj2 R)).
    cbn [andb bind]. change (n_float (int_type lo hi f)) with f.
    pose proof (to_float_rep f lo hi (stop - start) S D) as X.
    pose proof (to_float_rep f lo hi 0 S ltac:(lia)) as Y.
    destruct (rep_0 _ Y) as [s ->]. unfold fdiv.
    destruct (to_float (int_type lo hi f) (stop - start)); cbn [SFdiv ceil_usize bind]; try reflexivity;
      cbn [rep] in X; tauto.
  - intros H1 H2. unfold nd_arange_with_step, arange_data.
    rewrite int_count by (try assumption; nia). rewrite CD by assumption.
    assert (1 <= Z.abs (stop - start) / Z.abs step) by (apply Z.div_le_lower_bound; nia).
    destruct (Z.leb_spec 0 (- (Z.abs (stop - start) / Z.abs step))); [lia|reflexivity].
  - intros H1 H2. unfold nd_arange_with_step, arange_data.
    rewrite int_count by (try assumption; nia). rewrite CD by assumption.
    rewrite Z.div_small by lia. cbn [Z.opp Z.leb Z.compare bind Z.to_nat seq mapM].
    eexists _, _. split; [reflexivity|]. exact (from_buffer_new h []).
Qed.
Print Assumptions C40_arange_int_wrong_way.
Example C40_wrong_way_ex : nd_arange i32 [] 5 0 = Panic.
Proof. vm_compute. reflexivity. Qed.

(** Beyond 2^24 the count is wrong: arange_with_step(0i32, 16777217, 16777216) returns one
    element, although 16777216 also lies before the end. *)
Theorem C40_arange_int_refuted : exists start stop step h' a l,
  Z.abs start < 2 ^ 31 /\ Z.abs stop < 2 ^ 31 /\ 0 < step < 2 ^ 31 /\
  nd_arange_with_step i32 [] start stop step = Ok (h', a) /\ elems h' a = Ok l /\
  ~ progression start stop step l.
Proof.
  exists 0, 16777217, 16777216. eexists _, _, [0].
  split; [reflexivity|]. split; [reflexivity|]. split; [lia|].
  split; [vm_compute; reflexivity|]. split; [vm_compute; reflexivity|].
  intros [_ H]. specialize (H 1%nat). cbn [length] in H. unfold before in H.
  change (0 <? 16777216) with true in H. cbv iota in H. lia.
Qed.
Print Assumptions C40_arange_int_refuted.

(** ** C40: floating point element types *)
(** the elements of l are exactly the integers vs *)
Definition exactly (l : list spec_float) (vs : list Z) : Prop := Forall2 rep l vs.

Lemma to_float_rep_f f x v : std f -> Z.abs v < 2 ^ 24 -> rep x v ->
  rep (to_float (float_type f) x) v.
Proof.
  intros S V R. pose proof (std_bounds f S). pose proof (std_pow f S).
  unfold to_float. change (n_float (float_type f)) with f. change (n_to_f32 (float_type f)) with (convert f32).
  apply convert_rep; try lia. apply convert_rep; cbn [prec emax f32]; try lia; assumption.
Qed.

Lemma mapM_rep (f : nat -> res spec_float) (g : nat -> Z) l :
  (forall i, In i l -> exists x, f i = Ok x /\ rep x (g i)) ->
  exists xs, mapM f l = Ok xs /\ exactly xs (map g l).
Proof.
  induction l as [|i l IH]; intros H; [exists []; split; [reflexivity|constructor]|].
  destruct (H i (or_introl eq_refl)) as (x & E & R).
  destruct IH as (xs & Es & Rs); [intros j Hj; apply H; now right|].
  exists (x :: xs). cbn [mapM map]. rewrite E, Es. split; [reflexivity|]. now constructor.
Qed.

Lemma float_arange f start stop step a b s : std f ->
  rep start a -> rep stop b -> rep step s ->
  Z.abs a < 2 ^ 24 -> Z.abs b < 2 ^ 24 -> Z.abs (b - a) < 2 ^ 24 -> Z.abs s < 2 ^ 24 ->
  s <> 0 -> 0 <= (b - a) * s ->
  exists l vs, arange_data (float_type f) start stop step = Ok l /\ exactly l vs /\
    vs = map (fun i => a + Z.of_nat i * s) (seq 0 (Z.to_nat (cdiv (b - a) s))).
Proof.
  intros S Ra Rb Rs A B D P N DIR. pose proof (std_bounds f S) as SB. pose proof (std_pow f S) as SP.
  pose proof (cdiv_nonneg _ _ N DIR) as C.
  unfold arange_data, arange_count. cbn [n_sub float_type bind].
  change (n_float (float_type f)) with f.
  assert (RD : rep (fsub f stop start) (b - a)) by (apply sub_rep; try assumption; lia).
  unfold fdiv. rewrite (ceil_div (prec f) (emax f) ltac:(lia) ltac:(lia) _ _ (b - a) s)
    by (try (apply to_float_rep_f; assumption); try assumption; lia).
  rewrite (proj2 (Z.leb_le _ _) C). cbn [bind].
  destruct (mapM_rep (arange_item (float_type f) start step) (fun i => a + Z.of_nat i * s)
    (seq 0 (Z.to_nat (cdiv (b - a) s)))) as (xs & E & X).
  - intros i Hi. apply in_seq in Hi. destruct Hi as [_ Hi]. cbn [Nat.add] in Hi.
    assert (BF : before s (Z.of_nat i * s) (b - a))
      by (apply (proj1 (cdiv_before _ _ (Z.of_nat i) N DIR)); lia).
    unfold before in BF.
    unfold arange_item. cbn [n_of_usize n_mul n_add float_type bind].
    eexists. split; [reflexivity|].
    assert (I1 : Z.abs (Z.of_nat i) < 2 ^ prec f) by (destruct (Z.ltb_spec 0 s); nia).
    assert (I2 : Z.abs (Z.of_nat i * s) < 2 ^ prec f) by (destruct (Z.ltb_spec 0 s); nia).
    assert (I3 : Z.abs (Z.of_nat i * s + a) < 2 ^ prec f) by (destruct (Z.ltb_spec 0 s); nia).
    replace (a + Z.of_nat i * s) with (Z.of_nat i * s + a) by lia.
    apply add_rep; [lia|lia| |exact Ra|exact I3].
    apply mul_rep; [lia|lia| |exact Rs|exact I2].
    apply of_Z_rep; [lia|lia|exact I1].
  - exists xs. eexists. split; [exact E|]. split; [exact X|reflexivity].
Qed.

(** arange on floats holding integers is exact *)
Theorem C40_arange_float_partial : forall f (h : heap spec_float) start stop step a b s,
  std f -> rep start a -> rep stop b -> rep step s ->
  Z.abs a < 2 ^ 24 -> Z.abs b < 2 ^ 24 -> Z.abs (b - a) < 2 ^ 24 -> Z.abs s < 2 ^ 24 ->
  s <> 0 -> 0 <= (b - a) * s ->
  exists h' r l vs, nd_arange_with_step (float_type f) h start stop step = Ok (h', r) /\
    new_list h h' r l /\ exactly l vs /\ progression a b s vs.
Proof.
  intros f h start stop step a b s S Ra Rb Rs A B D P N DIR.
  destruct (float_arange f start stop step a b s S Ra Rb Rs A B D P N DIR) as (l & vs & E & X & V).
  unfold nd_arange_with_step. rewrite E. cbn [bind].
  pose proof (from_buffer_new h l) as F. destruct (from_buffer h [length l] l) as [h' r].
  exists h', r, l, vs. split; [reflexivity|]. split; [exact F|]. split; [exact X|].
  subst vs. now apply progression_count.
Qed.
Print Assumptions C40_arange_float_partial.
Example C40_float_ex : exists l, arange_data (float_type f32) (of_Z f32 (-2)) (of_Z f32 7) (of_Z f32 4) = Ok l /\
  map sval l = map sval [of_Z f32 (-2); of_Z f32 2; of_Z f32 6] /\ rep (of_Z f32 (-2)) (-2).
Proof. eexists. split; [vm_compute; reflexivity|]. split; [reflexivity|]. vm_compute. repeat split; discriminate. Qed.

(** 0.1 and 0.3 as f64 literals *)
Definition lit_0_1 : spec_float := fdiv f64 (of_Z f64 1) (of_Z f64 10).
Definition lit_0_3 : spec_float := fdiv f64 (of_Z f64 3) (of_Z f64 10).

(** arange_with_step(0f64, 0.3, 0.1) has four elements, the last of which is not below
    the end of the range: the count is computed in f32. *)
Theorem C40_arange_float_refuted : exists h' a l x,
  nd_arange_with_step (float_type f64) [] (of_Z f64 0) lit_0_3 lit_0_1 = Ok (h', a) /\
  elems h' a = Ok l /\ In x l /\ SFltb x lit_0_3 = false.
Proof.
  eexists _, _, _, _. split; [vm_compute; reflexivity|]. split; [vm_compute; reflexivity|].
  split; [right; right; right; left; reflexivity|]. vm_compute. reflexivity.
Qed.
Print Assumptions C40_arange_float_refuted.

(** ** C40: linspace *)
Theorem C40_linspace_partial : forall f (h : heap spec_float) start stop num a b,
  std f -> rep start a -> rep stop b ->
  (num = 0%nat -> nd_linspace f h start stop num = Panic) /\
  (num = 1%nat -> exists h' r, nd_linspace f h start stop num = Ok (h', r) /\ new_list h h' r [start]) /\
  (forall k, (2 <= num)%nat -> Z.of_nat num < 2 ^ 24 -> b - a = k * (Z.of_nat num - 1) -> k <> 0 ->
     Z.abs a < 2 ^ 24 -> Z.abs b < 2 ^ 24 -> Z.abs (b + k) < 2 ^ 24 -> Z.abs (b + k - a) < 2 ^ 24 ->
     exists h' r l, nd_linspace f h start stop num = Ok (h', r) /\ new_list h h' r l /\
       length l = num /\ exactly l (map (fun i => a + Z.of_nat i * k) (seq 0 num)) /\
       exists x, nth_error l (num - 1) = Some x /\ rep x b).
Proof.
  intros f h start stop num a b S Ra Rb. pose proof (std_bounds f S) as SB. pose proof (std_pow f S) as SP.
  split; [|split].
  - intros ->. reflexivity.
  - intros ->. eexists _, _. split; [reflexivity|]. exact (from_buffer_new h [start]).
  - intros k N2 NB EQ NK A B BK BKA.
    unfold nd_linspace, linspace_data.
    rewrite (proj2 (Nat.ltb_lt 0 num)) by lia. cbn [guard bind].
    rewrite (proj2 (Nat.eqb_neq num 1)) by lia.
    set (step := fdiv f (fsub f stop start) (fsub f (of_Z f (Z.of_nat num)) (of_Z f 1))).
    assert (RS : rep step k).
    { apply (div_rep (prec f) (emax f) ltac:(lia) ltac:(lia) _ _ k (Z.of_nat num - 1)); try lia.
      - rewrite <- EQ. apply sub_rep; try assumption; try lia. rewrite EQ. nia.
      - apply sub_rep; try lia; apply of_Z_rep; lia.
      - nia. }
    assert (RE : rep (fadd f stop step) (b + k)) by (apply add_rep; try assumption; lia).
    destruct (float_arange f start (fadd f stop step) step a (b + k) k S Ra RE RS) as (l & vs & E & X & V);
      try assumption; try nia.
    assert (CN : Z.to_nat (cdiv (b + k - a) k) = num).
    { replace (b + k - a) with (Z.of_nat num * k) by nia. unfold cdiv.
      rewrite <- Z.mul_opp_l, Z.div_mul by lia. lia. }
    rewrite CN in V. rewrite E. cbn [bind].
    pose proof (from_buffer_new h l) as F. destruct (from_buffer h [length l] l) as [h' r].
    exists h', r, l. split; [reflexivity|]. split; [exact F|]. subst vs.
    assert (LL : length l = num) by (apply Forall2_length in X; now rewrite map_length, seq_length in X).
    split; [exact LL|]. split; [exact X|].
    destruct (nth_error l (num - 1)) as [x|] eqn:EN; [|apply nth_error_None in EN; lia].
    exists x. split; [reflexivity|].
    assert (G : forall (l : list spec_float) vs i x, exactly l vs -> nth_error l i = Some x ->
              exists v, nth_error vs i = Some v /\ rep x v).
    { intros l0 vs i x0 F2. revert i. induction F2 as [|y v ys vs' HR F2 IH]; intros [|i] HN; cbn in HN; try discriminate.
      - injection HN as ->. exists v. split; [reflexivity|exact HR].
      - apply IH, HN. }
    destruct (G _ _ _ _ X EN) as (v & EV & RV).
    rewrite nth_error_map in EV.
    rewrite (nth_error_nth' _ 0%nat) in EV by (rewrite seq_length; lia).
    rewrite seq_nth in EV by lia. cbn [option_map] in EV. injection EV as <-.
    replace b with (a + Z.of_nat (0 + (num - 1)) * k); [exact RV|]. nia.
Qed.
Print Assumptions C40_linspace_partial.
Example C40_linspace_ex : exists l, linspace_data f64 (of_Z f64 1) (of_Z f64 10) 4 = Ok l /\
  map sval l = map sval [of_Z f64 1; of_Z f64 4; of_Z f64 7; of_Z f64 10].
Proof. eexists. split; [vm_compute; reflexivity|]. reflexivity. Qed.

(** linspace(0f64, 1, 6) returns seven points *)
Theorem C40_linspace_count_refuted : exists start stop num h' a l,
  nd_linspace f64 [] start stop num = Ok (h', a) /\ elems h' a = Ok l /\ length l <> num.
Proof.
  exists (of_Z f64 0), (of_Z f64 1), 6%nat. eexists _, _, _.
  split; [vm_compute; reflexivity|]. split; [vm_compute; reflexivity|]. cbn. discriminate.
Qed.
Print Assumptions C40_linspace_count_refuted.

(** the same for f32, linspace(0f32, 1, 55) *)
Theorem C40_linspace_f32_refuted : exists start stop num h' a l,
  nd_linspace f32 [] start stop num = Ok (h', a) /\ elems h' a = Ok l /\ length l <> num.
Proof.
  exists (of_Z f32 0), (of_Z f32 1), 55%nat. eexists _, _, _.
  split; [vm_compute; reflexivity|]. split; [vm_compute; reflexivity|]. cbn. discriminate.
Qed.
Print Assumptions C40_linspace_f32_refuted.

(** with equal ends linspace divides zero by zero and panics *)
Theorem C40_linspace_equal_ends_refuted : exists x num, (2 <= num)%nat /\
  nd_linspace f64 [] x x num = Panic.
Proof. exists (of_Z f64 1), 3%nat. split; [lia|]. vm_compute. reflexivity. Qed.
Print Assumptions C40_linspace_equal_ends_refuted.

(** linspace_exclusive(0f64, 1, 25) returns 26 points *)
Theorem C40_linspace_exclusive_refuted : exists start stop num h' a l,
  nd_linspace_exclusive f64 [] start stop num = Ok (h', a) /\ elems h' a = Ok l /\ length l <> num.
Proof.
  exists (of_Z f64 0), (of_Z f64 1), 25%nat. eexists _, _, _.
  split; [vm_compute; reflexivity|]. split; [vm_compute; reflexivity|]. cbn. discriminate.
Qed.
Print Assumptions C40_linspace_exclusive_refuted.

(** ** C41: randint *)
Lemma vcmp_le_scaled low x v m e : rep low v -> sval x = Some (m, e) -> vleb low x = true ->
  if 0 <=? e then v <= m * 2 ^ e else v * 2 ^ (- e) <= m.
Proof.
  intros R SX H. unfold vleb, vcmp in H. rewrite SX in H.
  assert (exists lm le, sval low = Some (lm, le) /\ le <= 0 /\ lm = v * 2 ^ (- le)) as (lm & le & SL & HL & EL).
  { destruct low as [s|s| |s lm le]; cbn [rep] in R; try tauto.
    - exists 0, 0. subst v. repeat split; reflexivity.
    - destruct R as (N & -> & H1 & H2). eexists _, le. split; [reflexivity|]. split; [exact H1|].
      destruct (Z.ltb_spec v 0); [replace (Z.abs v) with (- v) in H2 by lia|rewrite Z.abs_eq in H2 by lia]; lia. }
  rewrite SL in H. subst lm. set (z := Z.min le e) in *.
  assert (C : v * 2 ^ (- le) * 2 ^ (le - z) <= m * 2 ^ (e - z)).
  { destruct (Z.compare_spec (v * 2 ^ (- le) * 2 ^ (le - z)) (m * 2 ^ (e - z))); lia || discriminate. }
  rewrite <- Z.mul_assoc, <- pow2_split in C by lia. replace (- le + (le - z)) with (- z) in C by lia.
  destruct (Z.leb_spec 0 e).
  - replace (e - z) with (e + - z) in C by lia. rewrite pow2_split in C by lia.
    pose proof (pow2_pos (- z) ltac:(lia)). rewrite Z.mul_assoc in C. nia.
  - replace (- z) with (- e + (e - z)) in C by lia. rewrite pow2_split in C by lia.
    pose proof (pow2_pos (e - z) ltac:(lia)). rewrite Z.mul_assoc in C. nia.
Qed.

Lemma vcmp_lt_scaled high x v m e : rep high v -> sval x = Some (m, e) -> vltb x high = true ->
  if 0 <=? e then m * 2 ^ e < v else m < v * 2 ^ (- e).
Proof.
  intros R SX H. unfold vltb, vcmp in H. rewrite SX in H.
  assert (exists lm le, sval high = Some (lm, le) /\ le <= 0 /\ lm = v * 2 ^ (- le)) as (lm & le & SL & HL & EL).
  { destruct high as [s|s| |s lm le]; cbn [rep] in R; try tauto.
    - exists 0, 0. subst v. repeat split; reflexivity.
    - destruct R as (N & -> & H1 & H2). eexists _, le. split; [reflexivity|]. split; [exact H1|].
      destruct (Z.ltb_spec v 0); [replace (Z.abs v) with (- v) in H2 by lia|rewrite Z.abs_eq in H2 by lia]; lia. }
  rewrite SL in H. subst lm. set (z := Z.min e le) in *.
  assert (C : m * 2 ^ (e - z) < v * 2 ^ (- le) * 2 ^ (le - z)).
  { destruct (Z.compare_spec (m * 2 ^ (e - z)) (v * 2 ^ (- le) * 2 ^ (le - z))); lia || discriminate. }
  rewrite <- Z.mul_assoc, <- pow2_split in C by lia. replace (- le + (le - z)) with (- z) in C by lia.
  destruct (Z.leb_spec 0 e).
  - replace (e - z) with (e + - z) in C by lia. rewrite pow2_split in C by lia.
    pose proof (pow2_pos (- z) ltac:(lia)). rewrite Z.mul_assoc in C. nia.
  - replace (- z) with (- e + (e - z)) in C by lia. rewrite pow2_split in C by lia.
    pose proof (pow2_pos (e - z) ltac:(lia)). rewrite Z.mul_assoc in C. nia.
Qed.

Lemma round_Z_scaled x m e : sval x = Some (m, e) ->
  exists r, round_Z x = Some r /\
    if 0 <=? e then r = m * 2 ^ e else 2 * Z.abs (r * 2 ^ (- e) - m) <= 2 ^ (- e).
Proof.
  destruct x as [s|s| |s pm pe]; cbn [sval]; intros H; try discriminate.
  - injection H as <- <-. exists 0. split; reflexivity.
  - injection H as <- <-. cbn [round_Z]. eexists. split; [reflexivity|].
    destruct (Z.leb_spec 0 pe).
    + destruct s; lia.
    + set (k := 2 ^ (- pe)). pose proof (pow2_pos (- pe) ltac:(lia)) as K. fold k in K.
      set (r := (Zpos pm * 2 + k) / (2 * k)).
      pose proof (Z.div_mod (Zpos pm * 2 + k) (2 * k) ltac:(lia)) as D. fold r in D.
      pose proof (Z.mod_pos_bound (Zpos pm * 2 + k) (2 * k) ltac:(lia)) as B.
      destruct s; nia.
Qed.

Lemma round_between low high x v w m e : rep low v -> rep high w -> sval x = Some (m, e) ->
  drawn low high x = true -> exists r, round_Z x = Some r /\ v <= r <= w.
Proof.
  intros RL RH SX D. apply andb_true_iff in D as [D1 D2].
  pose proof (vcmp_le_scaled _ _ _ _ _ RL SX D1) as L. pose proof (vcmp_lt_scaled _ _ _ _ _ RH SX D2) as U.
  destruct (round_Z_scaled x m e SX) as (r & E & Q). exists r. split; [exact E|].
  destruct (Z.leb_spec 0 e); [lia|].
  pose proof (pow2_pos (- e) ltac:(lia)) as K. set (k := 2 ^ (- e)) in *. nia.
Qed.

Lemma drawn_val low high x : drawn low high x = true -> exists m e, sval x = Some (m, e).
Proof.
  unfold drawn, vltb, vcmp. intros H. apply andb_true_iff in H as [_ H].
  destruct (sval x) as [[m e]|]; [eauto|discriminate].
Qed.

(** For bounds below 2^24, whatever values the generator draws, randint returns an array
    of the shape whose entries lie between low and high, both included. *)
Theorem C41_randint_partial : forall lo hi f (h : heap Z) sh low high samples,
  std f -> lo <= low -> high <= hi -> Z.abs low < 2 ^ 24 -> Z.abs high < 2 ^ 24 -> low < high ->
  length samples = prod sh ->
  Forall (fun x => drawn (to_float (int_type lo hi f) low) (to_float (int_type lo hi f) high) x = true) samples ->
  exists h' a l, nd_randint lo hi f h sh low high samples = Ok (h', a) /\
    a_shape a = sh /\ elems h' a = Ok l /\ Forall (fun r => low <= r <= high) l /\
    Forall2 (fun x r => round_Z x = Some r) samples l.
Proof.
  intros lo hi f h sh low high samples S L0 H0 L H LH LEN FA.
  unfold nd_randint. rewrite (proj2 (Z.ltb_lt _ _) LH). cbn [guard bind].
  pose proof (to_float_rep f lo hi low S L) as RL. pose proof (to_float_rep f lo hi high S H) as RH.
  assert (G : vltb (to_float (int_type lo hi f) low) (to_float (int_type lo hi f) high) = true).
  { clear FA LEN. set (x := to_float (int_type lo hi f) low) in *. set (y := to_float (int_type lo hi f) high) in *.
    assert (V : forall q u, rep q u -> exists m e, sval q = Some (m, e) /\ e <= 0 /\ m = u * 2 ^ (- e)).
    { intros q u R. destruct q as [s|s| |s lm le]; cbn [rep] in R; try tauto.
      - exists 0, 0. subst u. repeat split; reflexivity.
      - destruct R as (N & -> & R1 & R2). eexists _, le. split; [reflexivity|]. split; [exact R1|].
        destruct (Z.ltb_spec u 0); [replace (Z.abs u) with (- u) in R2 by lia|rewrite Z.abs_eq in R2 by lia]; lia. }
    destruct (V _ _ RL) as (m1 & e1 & E1 & B1 & ->). destruct (V _ _ RH) as (m2 & e2 & E2 & B2 & ->).
    unfold vltb, vcmp. rewrite E1, E2. set (z := Z.min e1 e2).
    replace (low * 2 ^ (- e1) * 2 ^ (e1 - z)) with (low * 2 ^ (- z))
      by (rewrite <- Z.mul_assoc, <- pow2_split by lia; f_equal; f_equal; lia).
    replace (high * 2 ^ (- e2) * 2 ^ (e2 - z)) with (high * 2 ^ (- z))
      by (rewrite <- Z.mul_assoc, <- pow2_split by lia; f_equal; f_equal; lia).
    pose proof (pow2_pos (- z) ltac:(lia)).
    rewrite (proj2 (Z.compare_lt_iff _ _)); [reflexivity|]. nia. }
  rewrite G. cbn [guard bind].
  assert (M : exists l, mapM (randint_item lo hi) samples = Ok l /\ Forall (fun r => low <= r <= high) l /\
              Forall2 (fun x r => round_Z x = Some r) samples l).
  { clear LEN. induction FA as [|x xs D FA IH]; [exists []; repeat split; constructor|].
    destruct IH as (l & E & F1 & F2). destruct (drawn_val _ _ _ D) as (m & e & SX).
    destruct (round_between _ _ _ _ _ _ _ RL RH SX D) as (r & ER & B).
    exists (r :: l). cbn [mapM]. unfold randint_item at 1. rewrite ER. unfold checked.
    rewrite (proj2 (Z.leb_le lo r)), (proj2 (Z.leb_le r hi)) by lia. cbn [andb bind]. rewrite E.
    split; [reflexivity|]. split; constructor; assumption. }
  destruct M as (l & E & F1 & F2). rewrite E. cbn [bind]. unfold from_buffer, alloc.
  eexists _, _, l. split; [reflexivity|]. split; [reflexivity|]. split; [|split; assumption].
  apply fresh_elems. apply Forall2_length in F2. lia.
Qed.
Print Assumptions C41_randint_partial.

(** the value 3/4, which a sampler for 0..1 can draw *)
Definition three_quarters : spec_float := binary_normalize 24 128 3 (-2) false.
Example C41_ex : drawn (to_float i32 0) (to_float i32 1) three_quarters = true.
Proof. reflexivity. Qed.

(** randint(0, 1) can return 1, the excluded end *)
Theorem C41_upper_bound_refuted : exists low high x h' a,
  low < high /\ drawn (to_float i32 low) (to_float i32 high) x = true /\
  nd_randint (- 2 ^ 31) (2 ^ 31 - 1) f32 [] [1%nat] low high [x] = Ok (h', a) /\ elems h' a = Ok [high].
Proof.
  exists 0, 1, three_quarters. eexists _, _. split; [lia|]. split; [reflexivity|].
  split; vm_compute; reflexivity.
Qed.
Print Assumptions C41_upper_bound_refuted.

(** neighbouring bounds above 2^24 become equal as floats and the call panics *)
Theorem C41_large_bounds_refuted : exists low high, low < high /\
  forall h sh samples, nd_randint (- 2 ^ 31) (2 ^ 31 - 1) f32 h sh low high samples = Panic.
Proof. exists 16777216, 16777217. split; [lia|]. intros. reflexivity. Qed.
Print Assumptions C41_large_bounds_refuted.

(** an empty range is refused *)
Theorem C41_empty_range : forall lo hi f (h : heap Z) sh low high samples,
  high <= low -> nd_randint lo hi f h sh low high samples = Panic.
Proof. intros. unfold nd_randint. rewrite (proj2 (Z.ltb_ge _ _)) by lia. reflexivity. Qed.
Print Assumptions C41_empty_range.
Example C41_empty_ex : nd_randint 0 255 f32 [] [2%nat] 7 7 [three_quarters; three_quarters] = Panic.
Proof. reflexivity. Qed.

(** ** C48: rand *)
(** x is a number from 0 to 1, excluding 1 when [strict] *)
Definition unit_range (strict : bool) (x : spec_float) : Prop :=
  exists m e, sval x = Some (m, e) /\ e <= 0 /\ 0 <= m /\
    if strict then m < 2 ^ (- e) else m <= 2 ^ (- e).

Lemma rand_sample k : 0 < k < 2 ^ 52 ->
  exists m, binary_normalize 53 1024 k (-52) false = S754_finite false m (Zdigits2 k - 105) /\
    Zpos m = k * 2 ^ (53 - Zdigits2 k) /\ 1 <= Zdigits2 k <= 52.
Proof.
  intros H. destruct k as [|k|k]; try lia. cbn [binary_normalize].
  pose proof (digits_le (Zpos k) 52 ltac:(lia) ltac:(lia) ltac:(lia)).
  destruct (digits_bounds (Zpos k) ltac:(lia)) as [_ D].
  destruct (round_keeps 53 1024 false k (-52)) as (m & E & M); try lia.
  exists m. split; [|split; [exact M|lia]].
  replace (Zdigits2 (Zpos k) - 105) with (Zdigits2 (Zpos k) + -52 - 53) by lia. exact E.
Qed.

(** Every sample converted to f64 lies in 0..1; converted to f32 it is at most 1. *)
Theorem C48_rand_partial : forall f (h : heap spec_float) sh samples,
  std f -> length samples = prod sh -> Forall (fun k => 0 <= k < 2 ^ 52) samples ->
  exists h' a l, nd_rand f h sh samples = Ok (h', a) /\ a_shape a = sh /\ elems h' a = Ok l /\
    (f = f64 -> Forall (unit_range true) l) /\ Forall (unit_range false) l.
Proof.
  intros f h sh samples S LEN FA. unfold nd_rand, from_buffer, alloc.
  eexists _, _, (map (rand_item f) samples). split; [reflexivity|]. split; [reflexivity|].
  split; [apply fresh_elems; now rewrite map_length|].
  assert (G64 : forall k, 0 <= k < 2 ^ 52 -> unit_range true (rand_item f64 k)).
  { intros k H. unfold rand_item. destruct (Z.eq_dec k 0) as [->|N].
    { exists 0, 0. repeat split; cbn; lia. }
    destruct (rand_sample k ltac:(lia)) as (m & -> & M & D). cbn [convert].
    assert (Dm : Zdigits2 (Zpos m) = 53) by (rewrite M, digits_shift by lia; lia).
    destruct (round_keeps 53 1024 false m (Zdigits2 k - 105)) as (m' & E & M'); try lia.
    unfold f64. cbn [prec emax]. rewrite E, Dm. rewrite Dm in M'. change (2 ^ (53 - 53)) with 1 in M'.
    exists (Zpos m'), (53 + (Zdigits2 k - 105) - 53). split; [reflexivity|]. split; [lia|]. split; [lia|].
    rewrite M', M, Z.mul_1_r. replace (- (53 + (Zdigits2 k - 105) - 53)) with (52 + (53 - Zdigits2 k)) by lia.
    rewrite pow2_split by lia. pose proof (pow2_pos (53 - Zdigits2 k) ltac:(lia)). nia. }
  assert (G32 : forall k, 0 <= k < 2 ^ 52 -> unit_range false (rand_item f32 k)).
  { intros k H. unfold rand_item. destruct (Z.eq_dec k 0) as [->|N].
    { exists 0, 0. repeat split; cbn; lia. }
    destruct (rand_sample k ltac:(lia)) as (m & -> & M & D). cbn [convert].
    assert (Dm : Zdigits2 (Zpos m) = 53) by (rewrite M, digits_shift by lia; lia).
    destruct (round_le_1 24 128 ltac:(lia) ltac:(lia) m (Zdigits2 k - 105)) as (m' & e' & E & E' & M'); try lia.
    unfold f32. cbn [prec emax]. rewrite E.
    exists (Zpos m'), e'. repeat split; lia. }
  assert (W : forall x, unit_range true x -> unit_range false x).
  { intros x (m & e & H1 & H2 & H3 & H4). exists m, e. split; [exact H1|]. split; [exact H2|]. split; [exact H3|]. cbv iota in H4 |- *. lia. }
  rewrite !Forall_map. split.
  - intros ->. eapply Forall_impl; [|exact FA]. intros k H. now apply G64.
  - eapply Forall_impl; [|exact FA]. intros k H. destruct S as [-> | ->]; [now apply G32|].
    apply W. now apply G64.
Qed.
Print Assumptions C48_rand_partial.
Example C48_ex : exists x, rand_item f32 (2 ^ 51) = x /\ unit_range true x.
Proof. eexists. split; [reflexivity|]. eexists _, _. split; [vm_compute; reflexivity|]. repeat split; vm_compute; congruence. Qed.

(** rand::<f32>() can return 1.0: the largest f64 sample rounds up *)
Theorem C48_one_refuted : exists k h' a l,
  0 <= k < 2 ^ 52 /\ nd_rand f32 [] [1%nat] [k] = Ok (h', a) /\ elems h' a = Ok l /\
  l = [of_Z f32 1] /\ ~ Forall (unit_range true) l.
Proof.
  exists (2 ^ 52 - 1). eexists _, _, _. split; [lia|]. split; [reflexivity|]. split; [vm_compute; reflexivity|].
  split; [vm_compute; reflexivity|]. intros F. apply Forall_inv in F. destruct F as (m & e & H1 & H2 & H3 & H4).
  vm_compute in H1. injection H1 as <- <-. revert H4. vm_compute. discriminate.
Qed.
Print Assumptions C48_one_refuted.
