(** PropsSimd.v: properties of the vectorised kernels used on aarch64 (Simd.v).  L is the
    number of lanes: 4 for f32, 2 for f64. *)
From Coq Require Import List Arith Lia Bool ZArith Permutation.
From Coq Require SpecFloat.
From Verif Require Import Base Spec Layout SpecFacts LayoutFacts Views ViewsFacts ViewsFacts2 ViewsFacts3
  Kernels Access HeapFacts KernelFacts OpFacts AccessFacts Chain ChainFacts ViewsFacts4 Reduce ReduceFacts
  Einsum EinsumFacts2 EinsumFacts7 Simd SimdFacts SimdOps SimdRed SimdSop PropsViews PropsOps PropsReduce PropsEinsum.
Import ListNotations.
Open Scope res_scope.

(** ** C49 elementwise operators *)
Theorem C49_binary : forall T L (f : T -> T -> T) dflt (h : heap T) a b sh, L = 2 \/ L = 4 ->
  valid h a -> valid h b -> join_shape (a_shape a) (a_shape b) sh -> length sh <= MAX_DIMS -> 0 < prod sh ->
  exists h' r, snd_binary L f dflt h a b = Ok (h', r) /\
    fresh_result h h' r sh (fun idx => x <- get h a (bidx (a_shape a) idx) ;; y <- get h b (bidx (a_shape b) idx) ;; Ok (f x y)).
Proof.
  intros T L f dflt h a b sh HL Va Vb J MD P. rewrite (snd_binary_eq L (HL4 L HL) f dflt h a b sh Va Vb J P).
  apply (C12_binary T (fun x y => Ok (f x y)) dflt h a b sh Va Vb J MD P). intros idx I.
  destruct (valid_get_bidx h a sh idx Va (join_shape_broadcastable_l _ _ _ J) I) as (x & ->).
  destruct (valid_get_bidx h b sh idx Vb (join_shape_broadcastable_r _ _ _ J) I) as (y & ->). cbn [bind]. eauto.
Qed.
Print Assumptions C49_binary.
Theorem C49_incompatible_shapes_panic : forall T L (f : T -> T -> T) dflt (h : heap T) a b, L = 2 \/ L = 4 ->
  (exists k, ~ dim_compat (dim_r (a_shape a) k) (dim_r (a_shape b) k)) -> snd_binary L f dflt h a b = Panic.
Proof. intros T L f dflt h a b _. apply snd_binary_panic. Qed.
Print Assumptions C49_incompatible_shapes_panic.
Theorem C49_scalar_op : forall T L (f : T -> T -> T) dflt (h : heap T) a c, L = 2 \/ L = 4 ->
  valid h a -> length (a_shape a) <= MAX_DIMS -> 0 < prod (a_shape a) ->
  exists h' r, snd_scalar_op L f dflt h a c = Ok (h', r) /\
    fresh_result h h' r (a_shape a) (fun idx => x <- get h a idx ;; Ok (f x c)).
Proof.
  intros T L f dflt h a c HL V MD P. rewrite (snd_scalar_op_eq L (HL4 L HL) f dflt h a c V P).
  apply (C13_scalar_op T (fun x y => Ok (f x y)) dflt h a c V MD P). intros idx I. destruct (proj2 V idx I) as (x & ->). cbn [bind]. eauto.
Qed.
Print Assumptions C49_scalar_op.
Theorem C49_negation : forall T L (g : T -> T) dflt (h : heap T) a, L = 2 \/ L = 4 ->
  valid h a -> length (a_shape a) <= MAX_DIMS -> 0 < prod (a_shape a) ->
  exists h' r, snd_unary L g dflt h a = Ok (h', r) /\ fresh_result h h' r (a_shape a) (fun idx => x <- get h a idx ;; Ok (g x)).
Proof.
  intros T L g dflt h a HL V MD P. rewrite (snd_unary_eq L (HL4 L HL) dflt g h a V P).
  apply (C13_negation T (fun x => Ok (g x)) dflt h a V MD P). intros idx I. destruct (proj2 V idx I) as (x & ->). cbn [bind]. eauto.
Qed.
Print Assumptions C49_negation.
(** compound assignment, with the restrictions of C14_assign_partial *)
Theorem C49_assign_partial : forall T L (f : T -> T -> T) (h : heap T) blk n a b, L = 2 \/ L = 4 ->
  live h blk n -> chain blk n false a -> valid h b -> f_contig (a_fl a) = true ->
  broadcastable (a_shape b) (a_shape a) -> length (a_shape a) <= MAX_DIMS -> no_feedback a b ->
  exists h', snd_assign L f h a b = Ok h' /\
    (forall idx, in_range idx (a_shape a) ->
       get h' a idx = (x <- get h a idx ;; y <- get h b (bidx (a_shape b) idx) ;; Ok (f x y))) /\
    same_elsewhere h h' (cell_of a).
Proof.
  intros T L f h blk n a b HL LV C Vb CT BR MD NF. pose proof (chain_valid _ _ _ _ _ LV C) as V. destruct (chain_tight _ _ _ C) as (_ & NB & F & W).
  pose proof (chain_inv _ _ _ _ C) as I.
  rewrite (snd_assign_eq L (HL4 L HL) f h a b V Vb F NB CT).
  - apply (C14_assign_partial T (fun x y => Ok (f x y)) h blk n a b LV C Vb CT BR MD NF). intros idx R.
    destruct (proj2 V idx R) as (x & ->). destruct (valid_get_bidx h b (a_shape a) idx Vb BR R) as (y & ->). cbn [bind]. eauto.
  - apply pos_prod. apply (i_nb _ _ _ _ I eq_refl).
  - exact BR.
  - exact NF.
Qed.
Print Assumptions C49_assign_partial.
Theorem C49_assign_scalar_partial : forall T L (f : T -> T -> T) (h : heap T) blk n a c, L = 2 \/ L = 4 ->
  live h blk n -> chain blk n false a -> f_contig (a_fl a) = true -> length (a_shape a) <= MAX_DIMS ->
  exists h', snd_assign_scalar L f h a c = Ok h' /\
    (forall idx, in_range idx (a_shape a) -> get h' a idx = (x <- get h a idx ;; Ok (f x c))) /\
    same_elsewhere h h' (cell_of a).
Proof.
  intros T L f h blk n a c HL LV C CT MD. pose proof (chain_valid _ _ _ _ _ LV C) as V. destruct (chain_tight _ _ _ C) as (_ & NB & F & W).
  pose proof (chain_inv _ _ _ _ C) as I.
  rewrite (snd_assign_scalar_eq L (HL4 L HL) f h a c V F NB CT).
  - apply (C14_assign_scalar_partial T (fun x y => Ok (f x y)) h blk n a c LV C CT MD). intros idx R.
    destruct (proj2 V idx R) as (x & ->). cbn [bind]. eauto.
  - apply pos_prod. apply (i_nb _ _ _ _ I eq_refl).
Qed.
Print Assumptions C49_assign_scalar_partial.
(** eleven elements and two lanes: one block of eight, then the scalar tail *)
Definition exs : heap nat := [Some (seq 10 11); Some (seq 100 33)].
Definition exs1 : arr := fresh_arr 0 11 [11].
Example C49_ex : exists h' r, snd_binary 2 Nat.add 0 exs (fresh_arr 1 33 [3; 11]) exs1 = Ok (h', r) /\ a_shape r = [3; 11] /\
  elems h' r = Ok (map (fun i => 100 + i + (10 + i mod 11)) (seq 0 33)).
Proof. eexists _, _. split; [vm_compute; reflexivity|]. split; reflexivity. Qed.
Example C49_ex_hyp : exists h', live exs 0 11 /\ chain 0 11 false exs1 /\ f_contig (a_fl exs1) = true /\ no_feedback exs1 exs1 /\
  snd_assign 2 Nat.add exs exs1 exs1 = Ok h' /\ elems h' exs1 = Ok (map (fun i => 2 * (10 + i)) (seq 0 11)).
Proof.
  eexists. split; [eexists; split; reflexivity|]. assert (C : chain 0 11 false exs1) by (apply Ch_new; cbn; lia).
  split; [exact C|]. split; [reflexivity|]. split; [now apply (C14_no_feedback 0 11); auto|]. split; vm_compute; reflexivity.
Qed.
Example C49_ex_scalar : exists h' r, snd_scalar_op 4 Nat.mul 0 exs (fresh_arr 1 33 [3; 11]) 2 = Ok (h', r) /\
  elems h' r = Ok (map (fun i => 2 * (100 + i)) (seq 0 33)).
Proof. eexists _, _. split; vm_compute; reflexivity. Qed.
Example C49_ex_neg : exists h' r, snd_unary 4 (Nat.sub 200) 0 exs (fresh_arr 1 33 [3; 11]) = Ok (h', r) /\
  elems h' r = Ok (map (fun i => 100 - i) (seq 0 33)).
Proof. eexists _, _. split; vm_compute; reflexivity. Qed.

(** x[1..] += x[..n-1]: neither the sum of the old values nor what the portable loop computes.
    Here n = 17, two lanes. *)
Definition ones17 : heap nat := [Some (repeat 1 17)].
Theorem C49_overlap_refuted : exists a b h1 h2, chain 0 17 false a /\ chain 0 17 false b /\ live ones17 0 17 /\
  f_contig (a_fl a) = true /\ elems ones17 a = Ok (repeat 1 16) /\ elems ones17 b = Ok (repeat 1 16) /\
  snd_assign 2 Nat.add ones17 a b = Ok h1 /\ elems h1 a = Ok ([2; 2; 2; 2; 2; 2; 2; 2] ++ [3; 2; 2; 2; 2; 2; 2; 2]) /\
  nd_assign (fun x y => Ok (x + y)) ones17 a b = Ok h2 /\ elems h2 a = Ok (seq 2 16).
Proof.
  destruct (nd_slice (fresh_arr 0 17 [17]) [IFrom 1]) as [r1| |] eqn:E1; try discriminate.
  destruct (nd_slice (fresh_arr 0 17 [17]) [ITo 16]) as [r2| |] eqn:E2; try discriminate.
  exists r1, r2. eexists _, _. split; [|split; [|split]].
  - eapply (Ch_slice 0 17 false (fresh_arr 0 17 [17])); [apply Ch_new; cbn; lia| |exact E1]. split; [cbn; lia|repeat constructor].
  - eapply (Ch_slice 0 17 false (fresh_arr 0 17 [17])); [apply Ch_new; cbn; lia| |exact E2]. split; [cbn; lia|repeat constructor].
  - eexists; split; reflexivity.
  - vm_compute in E1. injection E1 as <-. vm_compute in E2. injection E2 as <-.
    do 3 (split; [reflexivity|]). split; [vm_compute; reflexivity|]. split; [reflexivity|]. split; [vm_compute; reflexivity|reflexivity].
Qed.
Print Assumptions C49_overlap_refuted.
(** x += x[0..1]: the vector loop keeps the first value of x[0] in a register for all its
    blocks, the scalar tail reads x[0] again after it was overwritten *)
Definition ones11 : heap nat := [Some (repeat 1 11)].
Theorem C49_constant_alias_refuted : exists a b h1 h2, chain 0 11 false a /\ chain 0 11 false b /\ live ones11 0 11 /\
  f_contig (a_fl a) = true /\ elems ones11 b = Ok [1] /\
  snd_assign 2 Nat.add ones11 a b = Ok h1 /\ elems h1 a = Ok [2; 2; 2; 2; 2; 2; 2; 2; 3; 3; 3] /\
  nd_assign (fun x y => Ok (x + y)) ones11 a b = Ok h2 /\ elems h2 a = Ok [2; 3; 3; 3; 3; 3; 3; 3; 3; 3; 3].
Proof.
  destruct (nd_slice (fresh_arr 0 11 [11]) [ITo 1]) as [r2| |] eqn:E2; try discriminate.
  exists (fresh_arr 0 11 [11]), r2. eexists _, _. split; [|split; [|split]].
  - apply Ch_new; cbn; lia.
  - eapply (Ch_slice 0 11 false (fresh_arr 0 11 [11])); [apply Ch_new; cbn; lia| |exact E2]. split; [cbn; lia|repeat constructor].
  - eexists; split; reflexivity.
  - vm_compute in E2. injection E2 as <-.
    do 2 (split; [reflexivity|]). split; [vm_compute; reflexivity|]. split; [reflexivity|]. split; [vm_compute; reflexivity|reflexivity].
Qed.
Print Assumptions C49_constant_alias_refuted.

(** ** C50 reductions.  Broadcast views for which has_uniform_stride answers Some are left out,
    as in C19 (C19_broadcast_sum_refuted applies unchanged). *)
Definition dense {T} (h : heap T) (a : arr) : Prop :=
  valid h a /\ length (a_shape a) <= MAX_DIMS /\
  (no_bcast (a_shape a) (a_stride a) \/ has_uniform_stride (a_shape a) (a_stride a) = None).
Lemma chain_dense {T} (h : heap T) blk n a : live h blk n -> length (a_shape a) <= MAX_DIMS ->
  chain blk n false a \/ (chain blk n true a /\ has_uniform_stride (a_shape a) (a_stride a) = None) -> dense h a.
Proof.
  intros LV MD D. split; [destruct D as [C|[C _]]; eapply chain_valid; eauto|]. split; [exact MD|].
  destruct D as [C|[_ E]]; [left; now destruct (chain_tight _ _ _ C) as (_ & NB & _)|now right].
Qed.

(** For any addition whatsoever, floating point included: the result is a sum, in some order
    and bracketing, of every element once and of between 1 and L zeros. *)
Theorem C50_sum_partial : forall T L (add : T -> T -> T) zero (h : heap T) a, L = 2 \/ L = 4 -> dense h a ->
  exists xs t k h' r, elems h a = Ok xs /\ snd_sum L add zero h a = Ok (h', r) /\ 1 <= k <= L /\
    Permutation (leaves t) (repeat zero k ++ xs) /\ fresh_result h h' r [] (fun _ => Ok (teval add t)).
Proof.
  intros T L add zero h a HL (V & MD & D). destruct (valid_elems h a V) as (xs & E).
  destruct (sum_tree L HL add zero h a xs V D MD E) as (t & k & K & P & Q).
  destruct (scalar_result h (teval add t)) as (h' & r & S & F). exists xs, t, k, h', r. unfold snd_sum. rewrite Q. cbn [bind]. auto.
Qed.
Print Assumptions C50_sum_partial.
Theorem C50_product_partial : forall T L (mul : T -> T -> T) one (h : heap T) a, L = 2 \/ L = 4 -> dense h a ->
  exists xs t k h' r, elems h a = Ok xs /\ snd_product L mul one h a = Ok (h', r) /\ 1 <= k <= L /\
    Permutation (leaves t) (repeat one k ++ xs) /\ fresh_result h h' r [] (fun _ => Ok (teval mul t)).
Proof.
  intros T L mul one h a HL (V & MD & D). destruct (valid_elems h a V) as (xs & E).
  destruct (product_tree L HL mul one h a xs V D MD E) as (t & k & K & P & Q).
  destruct (scalar_result h (teval mul t)) as (h' & r & S & F). exists xs, t, k, h', r. unfold snd_product. rewrite Q. cbn [bind]. auto.
Qed.
Print Assumptions C50_product_partial.

(** where the operation is associative and commutative with unit [e] (machine integers with
    wrapping, exact numbers) this is the left-to-right fold of the portable code *)
Lemma tree_units {T} (op : T -> T -> T) e (A : forall x y z, op (op x y) z = op x (op y z)) (C : forall x y, op x y = op y x)
    (U : forall x, op e x = x) t k xs : Permutation (leaves t) (repeat e k ++ xs) -> teval op t = fold_left op xs e.
Proof.
  intros P. rewrite (tree_monoid op e A C U), (fold_perm op e A C _ _ P), (fold_left_right op e A C U). clear P.
  induction k as [|k IH]; cbn [repeat app fold_right]; [reflexivity|]. now rewrite IH, U.
Qed.
Theorem C50_monoid_partial : forall T L (op : T -> T -> T) e (h : heap T) a, L = 2 \/ L = 4 -> dense h a ->
  (forall x y z, op (op x y) z = op x (op y z)) -> (forall x y, op x y = op y x) -> (forall x, op e x = x) ->
  exists xs hs rs hp rp, elems h a = Ok xs /\
    snd_sum L op e h a = Ok (hs, rs) /\ fresh_result h hs rs [] (fun _ => Ok (fold_left op xs e)) /\
    snd_product L op e h a = Ok (hp, rp) /\ fresh_result h hp rp [] (fun _ => Ok (fold_left op xs e)).
Proof.
  intros T L op e h a HL D A C U.
  destruct (C50_sum_partial T L op e h a HL D) as (xs & t & k & hs & rs & E & S & _ & P & F).
  destruct (C50_product_partial T L op e h a HL D) as (xs' & t' & k' & hp & rp & E' & S' & _ & P' & F').
  assert (xs' = xs) by congruence. subst xs'. rewrite (tree_units op e A C U t k xs P) in F. rewrite (tree_units op e A C U t' k' xs P') in F'.
  exists xs, hs, rs, hp, rp. auto.
Qed.
Print Assumptions C50_monoid_partial.
Example C50_ex : dense exs exs1 /\ (exists h' r, snd_sum 2 Nat.add 0 exs exs1 = Ok (h', r) /\ get h' r [] = Ok 165) /\
  (exists h' r, snd_product 2 Nat.add 0 exs exs1 = Ok (h', r) /\ get h' r [] = Ok 165).
Proof.
  split.
  - apply (chain_dense exs 0 11); [eexists; split; reflexivity|now apply Nat.leb_le|left; apply Ch_new; cbn; lia].
  - split; eexists _, _; split; vm_compute; reflexivity.
Qed.

(** f64: the portable sum of [2^53; 1; 1; ...] is 2^53, the vectorised one is larger *)
Definition f64_add := SpecFloat.SFadd 53 1024.
Definition f64_zero := SpecFloat.S754_zero false.
Definition f64_one := SpecFloat.S754_finite false 4503599627370496 (-52).
Definition f64_two53 := SpecFloat.S754_finite false 4503599627370496 1.
Definition exf : heap SpecFloat.spec_float := [Some (f64_two53 :: repeat f64_one 7)].
Theorem C50_float_sum_refuted : exists a h1 r1 h2 r2, dense exf a /\
  snd_sum 2 f64_add f64_zero exf a = Ok (h1, r1) /\ get h1 r1 [] = Ok (SpecFloat.S754_finite false 4503599627370499 1) /\
  nd_reduce (fun x acc => Ok (f64_add acc x)) f64_zero exf a = Ok (h2, r2) /\ get h2 r2 [] = Ok f64_two53.
Proof.
  exists (fresh_arr 0 8 [8]). eexists _, _, _, _. split.
  - apply (chain_dense exf 0 8); [eexists; split; reflexivity|now apply Nat.leb_le|left; apply Ch_new; cbn; lia].
  - split; [vm_compute; reflexivity|]. split; [vm_compute; reflexivity|]. split; vm_compute; reflexivity.
Qed.
Print Assumptions C50_float_sum_refuted.

(** min and max of floating point numbers.  vminq / vmaxq: a lane with a NaN gives NaN, and -0
    counts as less than +0; the scalar loops use partial_min and partial_max. *)
Import SpecFloat.
Definition nan (x : spec_float) : bool := match x with S754_nan => true | _ => false end.
Definition neg (x : spec_float) : bool :=
  match x with S754_zero s | S754_infinity s | S754_finite s _ _ => s | S754_nan => false end.
Definition zero_f (x : spec_float) : bool := match x with S754_zero _ => true | _ => false end.
Definition lane_min (x y : spec_float) : spec_float :=
  if nan x || nan y then S754_nan else if zero_f x && zero_f y then S754_zero (neg x || neg y) else if SFltb y x then y else x.
Definition lane_max (x y : spec_float) : spec_float :=
  if nan x || nan y then S754_nan else if zero_f x && zero_f y then S754_zero (neg x && neg y) else if SFltb x y then y else x.

(** the order of non-NaN floats is lexicographic on (class, exponent, mantissa) *)
Definition fkey (x : spec_float) : Z * Z * Z :=
  (match x with
   | S754_infinity true => (-2, 0, 0) | S754_finite true m e => (-1, -e, Zneg m)
   | S754_zero _ => (0, 0, 0)
   | S754_finite false m e => (1, e, Zpos m) | S754_infinity false => (2, 0, 0)
   | S754_nan => (3, 0, 0)
   end)%Z.
Definition lex (k l : Z * Z * Z) : Prop :=
  (let '(a, b, c) := k in let '(a', b', c') := l in a < a' \/ (a = a' /\ (b < b' \/ (b = b' /\ c <= c'))))%Z.
Lemma fkey_le x y : nan x = false -> nan y = false -> SFleb x y = true <-> lex (fkey x) (fkey y).
Proof.
  intros X Y. unfold SFleb, SFcompare, lex, fkey.
  destruct x as [?|[|]| |[|] m e]; destruct y as [?|[|]| |[|] m' e']; try discriminate;
    try (split; [auto; try lia; discriminate|try reflexivity; lia]).
  - destruct (Z.compare_spec e e') as [->|C|C].
    + change (Pcompare m m' Eq) with (Pos.compare m m'). destruct (Pos.compare_spec m m') as [->|D|D]; cbn [CompOpp]; (split; [try discriminate; intros _; lia|try reflexivity; lia]).
    + split; [discriminate|lia].
    + split; [lia|reflexivity].
  - destruct (Z.compare_spec e e') as [->|C|C].
    + change (Pcompare m m' Eq) with (Pos.compare m m'). destruct (Pos.compare_spec m m') as [->|D|D]; (split; [try discriminate; intros _; lia|try reflexivity; lia]).
    + split; [lia|reflexivity].
    + split; [discriminate|lia].
Qed.
Lemma flt_le x y : nan x = false -> nan y = false -> SFltb x y = negb (SFleb y x).
Proof.
  intros X Y. unfold SFltb, SFleb, SFcompare.
  destruct x as [?|[|]| |[|] m e]; destruct y as [?|[|]| |[|] m' e']; try discriminate; try reflexivity;
    rewrite (Z.compare_antisym e e'); destruct (Z.compare e e'); cbn [CompOpp]; try reflexivity;
    change (Pcompare m m' Eq) with (Pos.compare m m'); change (Pcompare m' m Eq) with (Pos.compare m' m);
    rewrite (Pos.compare_antisym m m'); destruct (Pos.compare m m'); reflexivity.
Qed.
Definition fle (x y : spec_float) : Prop := SFleb x y = true.
Lemma fle_refl x : nan x = false -> fle x x.
Proof. intros X. apply fkey_le; auto. unfold lex. destruct (fkey x) as ((a & b) & c). lia. Qed.
Lemma fle_trans x y z : nan x = false -> nan y = false -> nan z = false -> fle x y -> fle y z -> fle x z.
Proof.
  intros X Y Z H1 H2. apply fkey_le in H1, H2; auto. apply fkey_le; auto. unfold lex in *.
  destruct (fkey x) as ((a & b) & c), (fkey y) as ((a' & b') & c'), (fkey z) as ((a'' & b'') & c''). lia.
Qed.
Lemma fle_total x y : nan x = false -> nan y = false -> SFleb x y = false -> fle y x.
Proof.
  intros X Y H. apply fkey_le; auto. assert (N : ~ lex (fkey x) (fkey y)) by (intros C; apply fkey_le in C; auto; congruence).
  unfold lex in *. destruct (fkey x) as ((a & b) & c), (fkey y) as ((a' & b') & c'). lia.
Qed.

Lemma lane_min_ok x y : nan x = false -> nan y = false -> (lane_min x y = x \/ lane_min x y = y) /\ fle (lane_min x y) x /\ fle (lane_min x y) y.
Proof.
  intros X Y. unfold lane_min. rewrite X, Y. cbn [orb]. destruct (zero_f x) eqn:ZX; cbn [andb]; [destruct (zero_f y) eqn:ZY|].
  - destruct x as [[|]| | |]; try discriminate; destruct y as [[|]| | |]; try discriminate; cbn; auto; repeat split; auto.
  - rewrite flt_le by assumption. destruct (SFleb x y) eqn:E; cbn [negb]; [|apply fle_total in E; auto]; split; auto; split; auto; now apply fle_refl.
  - rewrite flt_le by assumption. destruct (SFleb x y) eqn:E; cbn [negb]; [|apply fle_total in E; auto]; split; auto; split; auto; now apply fle_refl.
Qed.
Lemma lane_max_ok x y : nan x = false -> nan y = false -> (lane_max x y = x \/ lane_max x y = y) /\ fle x (lane_max x y) /\ fle y (lane_max x y).
Proof.
  intros X Y. unfold lane_max. rewrite X, Y. cbn [orb]. destruct (zero_f x) eqn:ZX; cbn [andb]; [destruct (zero_f y) eqn:ZY|].
  - destruct x as [[|]| | |]; try discriminate; destruct y as [[|]| | |]; try discriminate; cbn; auto; repeat split; auto.
  - rewrite flt_le by assumption. destruct (SFleb y x) eqn:E; cbn [negb]; [|apply fle_total in E; auto]; split; auto; split; auto; now apply fle_refl.
  - rewrite flt_le by assumption. destruct (SFleb y x) eqn:E; cbn [negb]; [|apply fle_total in E; auto]; split; auto; split; auto; now apply fle_refl.
Qed.
Lemma pmin_ok x y : nan x = false -> nan y = false -> (pmin SFltb x y = x \/ pmin SFltb x y = y) /\ fle (pmin SFltb x y) x /\ fle (pmin SFltb x y) y.
Proof.
  intros X Y. unfold pmin. rewrite flt_le by assumption. destruct (SFleb x y) eqn:E; cbn [negb]; [|apply fle_total in E; auto];
    split; auto; split; auto; now apply fle_refl.
Qed.
Lemma pmax_ok x y : nan x = false -> nan y = false -> (pmax SFltb x y = x \/ pmax SFltb x y = y) /\ fle x (pmax SFltb x y) /\ fle y (pmax SFltb x y).
Proof.
  intros X Y. unfold pmax. rewrite flt_le by assumption. destruct (SFleb y x) eqn:E; cbn [negb]; [|apply fle_total in E; auto];
    split; auto; split; auto; now apply fle_refl.
Qed.

(** no NaN among the elements: min is below every element and equals one of them, as soon as
    one element is not above the start value (the largest finite number) *)
Theorem C50_min_partial : forall L (h : heap spec_float) a top, L = 2 \/ L = 4 -> dense h a -> nan top = false ->
  exists xs, elems h a = Ok xs /\ (Forall (fun x => nan x = false) xs -> (exists x, In x xs /\ fle x top) ->
    exists v h' r, snd_min L SFltb lane_min top h a = Ok (h', r) /\ fresh_result h h' r [] (fun _ => Ok v) /\
      (exists x, In x xs /\ SFeqb v x = true) /\ forall x, In x xs -> fle v x).
Proof.
  intros L h a top HL (V & MD & D) NT. destruct (valid_elems h a V) as (xs & E). exists xs. split; [exact E|]. intros NX (x0 & I0 & B0).
  destruct (minmax_least L HL (fun x => nan x = false) fle fle_refl fle_trans lane_min (pmin SFltb) lane_min_ok pmin_ok
    (partial_min SFltb) h a xs top (fun v acc => eq_refl) NT NX V D MD E) as (v & Q & (IV & LV)).
  destruct (scalar_result h v) as (h' & r & S & F). exists v, h', r.
  unfold snd_min, simd_min_contiguous, simd_min_uniform. rewrite Q. cbn [bind]. split; [exact S|]. split; [exact F|].
  split; [|intros x I; apply LV; now right].
  assert (EQ : forall x y, fle x y -> fle y x -> SFeqb x y = true).
  { clear. unfold fle, SFleb, SFeqb. intros x y H1 H2. destruct (SFcompare x y) as [[| |]|] eqn:C; try discriminate; [reflexivity|].
    exfalso. assert (NX : nan x = false) by (destruct x; try reflexivity; discriminate C).
    assert (NY : nan y = false) by (destruct y; try reflexivity; destruct x; discriminate C).
    pose proof (flt_le x y NX NY) as Q. unfold SFltb, SFleb in Q. rewrite C in Q. destruct (SFcompare y x) as [[| |]|]; discriminate. }
  destruct IV as [<-|IV].
  - exists x0. split; [exact I0|]. apply EQ; auto. apply LV. now right.
  - exists v. split; [exact IV|]. apply EQ; apply fle_refl; rewrite Forall_forall in NX; auto.
Qed.
Print Assumptions C50_min_partial.
Theorem C50_max_partial : forall L (h : heap spec_float) a bot, L = 2 \/ L = 4 -> dense h a -> nan bot = false ->
  exists xs, elems h a = Ok xs /\ (Forall (fun x => nan x = false) xs -> (exists x, In x xs /\ fle bot x) ->
    exists v h' r, snd_max L SFltb lane_max bot h a = Ok (h', r) /\ fresh_result h h' r [] (fun _ => Ok v) /\
      (exists x, In x xs /\ SFeqb v x = true) /\ forall x, In x xs -> fle x v).
Proof.
  intros L h a top HL (V & MD & D) NT. destruct (valid_elems h a V) as (xs & E). exists xs. split; [exact E|]. intros NX (x0 & I0 & B0).
  destruct (minmax_least L HL (fun x => nan x = false) (fun x y => fle y x) fle_refl (fun x y z X Y Z H1 H2 => fle_trans z y x Z Y X H2 H1)
    lane_max (pmax SFltb) lane_max_ok pmax_ok
    (partial_max SFltb) h a xs top (fun v acc => eq_refl) NT NX V D MD E) as (v & Q & (IV & LV)).
  destruct (scalar_result h v) as (h' & r & S & F). exists v, h', r.
  unfold snd_max, simd_max_contiguous, simd_max_uniform. rewrite Q. cbn [bind]. split; [exact S|]. split; [exact F|].
  split; [|intros x I; apply LV; now right].
  assert (EQ : forall x y, fle x y -> fle y x -> SFeqb x y = true).
  { clear. unfold fle, SFleb, SFeqb. intros x y H1 H2. destruct (SFcompare x y) as [[| |]|] eqn:C; try discriminate; [reflexivity|].
    exfalso. assert (NX : nan x = false) by (destruct x; try reflexivity; discriminate C).
    assert (NY : nan y = false) by (destruct y; try reflexivity; destruct x; discriminate C).
    pose proof (flt_le x y NX NY) as Q. unfold SFltb, SFleb in Q. rewrite C in Q. destruct (SFcompare y x) as [[| |]|]; discriminate. }
  destruct IV as [<-|IV].
  - exists x0. split; [exact I0|]. apply EQ; auto. apply LV. now right.
  - exists v. split; [exact IV|]. apply EQ; apply fle_refl; rewrite Forall_forall in NX; auto.
Qed.
Print Assumptions C50_max_partial.

(** with a NaN the answer depends on where it is: the vector part returns NaN, the scalar tail
    (and the portable code) ignores it *)
Definition f64_top := S754_finite false 9007199254740991 971.
Theorem C50_min_nan_refuted : exists (h g : heap spec_float) xs ys a h1 r1 h2 r2 h3 r3, Permutation xs ys /\
  dense h a /\ dense g a /\ elems h a = Ok xs /\ elems g a = Ok ys /\
  snd_min 2 SFltb lane_min f64_top h a = Ok (h1, r1) /\ get h1 r1 [] = Ok S754_nan /\
  snd_min 2 SFltb lane_min f64_top g a = Ok (h2, r2) /\ get h2 r2 [] = Ok f64_one /\
  nd_reduce (partial_min SFltb) f64_top h a = Ok (h3, r3) /\ get h3 r3 [] = Ok f64_one.
Proof.
  exists [Some (S754_nan :: repeat f64_one 8)], [Some (repeat f64_one 8 ++ [S754_nan])], (S754_nan :: repeat f64_one 8), (repeat f64_one 8 ++ [S754_nan]).
  exists (fresh_arr 0 9 [9]). eexists _, _, _, _, _, _. split; [apply (Permutation_cons_append (repeat f64_one 8) S754_nan)|].
  split; [apply (chain_dense _ 0 9); [eexists; split; reflexivity|now apply Nat.leb_le|left; apply Ch_new; cbn; lia]|].
  split; [apply (chain_dense _ 0 9); [eexists; split; reflexivity|now apply Nat.leb_le|left; apply Ch_new; cbn; lia]|].
  split; [reflexivity|]. split; [reflexivity|]. do 5 (split; [vm_compute; reflexivity|]). vm_compute; reflexivity.
Qed.
Print Assumptions C50_min_nan_refuted.
Example C50_ex2 : (exists h' r, snd_min 2 SFltb lane_min f64_top exf (fresh_arr 0 8 [8]) = Ok (h', r) /\ get h' r [] = Ok f64_one) /\
  (exists h' r, snd_max 2 SFltb lane_max (SFopp f64_top) exf (fresh_arr 0 8 [8]) = Ok (h', r) /\ get h' r [] = Ok f64_two53) /\
  fle f64_one f64_top /\ nan f64_two53 = false.
Proof. split; [eexists _, _; split; vm_compute; reflexivity|]. split; [eexists _, _; split; vm_compute; reflexivity|]. split; reflexivity. Qed.

(** ** C51 sums of products *)
(** scalar * row + result: exactly the portable loop, with any fused operation (floats included) *)
Theorem C51_muladd : forall T L (fma : T -> T -> T -> T) (h : heap T) p0 p1 dst n, L = 2 \/ L = 4 -> fst p1 <> fst dst ->
  ssop_muladd L fma h p0 p1 dst n = sop_muladd (fun x y z => Ok (fma x y z)) h p0 p1 dst n.
Proof. intros T L fma h p0 p1 dst n HL. apply (ssop_muladd_eq L HL fma). Qed.
Print Assumptions C51_muladd.

Lemma holds_blk {T} (h : heap T) a v : Forall (fun n => 0 < n) (a_shape a) -> holds h a v -> a_blk a < length h.
Proof. exact (holds_live h a v). Qed.

Theorem C51_matmul_partial : forall T L (zero one : T) add mul, L = 2 \/ L = 4 -> is_csr zero one add mul -> forall (h : heap T) a b va vb n k m,
  a_shape a = [n; k] -> a_shape b = [k; m] -> 0 < n -> 0 < k -> 0 < m -> holds h a va -> holds h b vb ->
  exists h' r, snd_matmul L zero one add mul (fun x y z => add (mul x y) z) h a b = Ok (h', r) /\
    fresh_result h h' r [n; m] (fun idx => Ok (bigsum add zero (map (fun t => mul (va [nth 0 idx 0; t]) (vb [t; nth 1 idx 0])) (seq 0 k)))).
Proof.
  intros T L zero one add mul HL CSR h a b va vb n k m Sa Sb N K M Ha Hb.
  rewrite (snd_matmul_eq L HL zero one add mul CSR).
  - now apply (C26_matmul T zero one add mul CSR).
  - apply (holds_blk h a va); [rewrite Sa; auto|exact Ha].
  - apply (holds_blk h b vb); [rewrite Sb; auto|exact Hb].
Qed.
Print Assumptions C51_matmul_partial.
Theorem C51_bmm_partial : forall T L (zero one : T) add mul, L = 2 \/ L = 4 -> is_csr zero one add mul -> forall (h : heap T) a b va vb q n k m,
  a_shape a = [q; n; k] -> a_shape b = [q; k; m] -> 0 < q -> 0 < n -> 0 < k -> 0 < m -> holds h a va -> holds h b vb ->
  exists h' r, snd_bmm L zero one add mul (fun x y z => add (mul x y) z) h a b = Ok (h', r) /\
    fresh_result h h' r [q; n; m] (fun idx => Ok (bigsum add zero
      (map (fun t => mul (va [nth 0 idx 0; nth 1 idx 0; t]) (vb [nth 0 idx 0; t; nth 2 idx 0])) (seq 0 k)))).
Proof.
  intros T L zero one add mul HL CSR h a b va vb q n k m Sa Sb Q N K M Ha Hb.
  rewrite (snd_bmm_eq L HL zero one add mul CSR).
  - now apply (C26_bmm T zero one add mul CSR).
  - apply (holds_blk h a va); [rewrite Sa; auto|exact Ha].
  - apply (holds_blk h b vb); [rewrite Sb; auto|exact Hb].
Qed.
Print Assumptions C51_bmm_partial.
Theorem C51_einsum_partial : forall T L (zero one : T) add mul, L = 2 \/ L = 4 -> is_csr zero one add mul ->
  forall (h : heap T) ops subs vals out sm dm,
  Forall (Forall letter) subs -> Forall letter out ->
  NoDup (out ++ sm) -> (forall l, In l (out ++ sm) <-> exists s, In s subs /\ In l s) ->
  out ++ sm <> [] -> length (out ++ sm) <= 32 -> length ops <= 15 ->
  Forall2 (fun s a => a_shape a = map dm s /\ length s <= 32) subs ops ->
  Forall2 (holds h) ops vals -> (forall l, In l (out ++ sm) -> 0 < dm l) ->
  exists h' r, snd_einsum L zero one add mul (fun x y z => add (mul x y) z) h ops subs out = Ok (h', r) /\
    fresh_result h h' r (map dm out) (fun oidx => Ok (einsum_value zero one add mul dm subs vals out sm oidx)).
Proof.
  intros T L zero one add mul HL CSR h ops subs vals out sm dm LS LO ND COV NE LM LA FS FH PD.
  rewrite (snd_einsum_eq L HL zero one add mul CSR).
  - now apply (C27_einsum_partial T zero one add mul CSR h ops subs vals out sm dm).
  - assert (PS : forall s, In s subs -> forall l, In l s -> 0 < dm l). { intros s I l J. apply PD, COV. eauto. }
    clear - FS FH PS. revert vals FH. induction FS as [|s a subs ops [SH _] FS IH]; intros vals FH; inversion FH as [|? v ? vals' Hv FH']; subst; constructor.
    + apply (holds_blk h a v); [|exact Hv]. rewrite SH. apply Forall_map, Forall_forall. apply PS. now left.
    + apply (IH (fun s' I => PS s' (or_intror I)) vals' FH').
Qed.
Print Assumptions C51_einsum_partial.
(** a 2x11 matrix times an 11x3 matrix and the contraction "ij,ij->i" (a dot product per row) *)
Definition exm : heap nat := [Some (seq 0 22); Some (seq 5 33)].
Example C51_ex : exists h' r, snd_matmul 2 0 1 Nat.add Nat.mul (fun x y z => x * y + z) exm (fresh_arr 0 22 [2; 11]) (fresh_arr 1 33 [11; 3]) = Ok (h', r) /\
  elems h' r = Ok (flat_map (fun i => map (fun j => fold_left Nat.add (map (fun t => (11 * i + t) * (5 + 3 * t + j)) (seq 0 11)) 0) (seq 0 3)) (seq 0 2)).
Proof. eexists _, _. split; vm_compute; reflexivity. Qed.
Example C51_ex2 : exists h' r, snd_einsum 4 0 1 Nat.add Nat.mul (fun x y z => x * y + z) exm [fresh_arr 0 22 [1; 22]; fresh_arr 1 22 [1; 22]]
    [[105; 106]; [105; 106]]%Z [105]%Z = Ok (h', r) /\
  elems h' r = Ok [fold_left Nat.add (map (fun t => t * (5 + t)) (seq 0 22)) 0].
Proof. eexists _, _. split; vm_compute; reflexivity. Qed.
(** f64: the vectorised matrix product of a row by a column differs from the portable one *)
Definition f64_mul := SFmul 53 1024.
Definition exfm : heap spec_float := [Some (f64_two53 :: repeat f64_one 7); Some (repeat f64_one 8)].
Theorem C51_float_refuted : exists a b fma h1 r1 h2 r2, dense exfm a /\ dense exfm b /\
  (forall x y, In x [f64_two53; f64_one] -> y = f64_one -> forall z, fma x y z = f64_add x z) /\
  snd_einsum 2 f64_zero f64_one f64_add f64_mul fma exfm [a; b] [[105; 106]; [105; 106]]%Z [105]%Z = Ok (h1, r1) /\
  get h1 r1 [0] = Ok (S754_finite false 4503599627370499 1) /\
  nd_einsum f64_zero f64_one (fun x y => Ok (f64_add x y)) (fun x y => Ok (f64_mul x y)) (fun x y z => Ok (fma x y z))
    exfm [a; b] [[105; 106]; [105; 106]]%Z [105]%Z = Ok (h2, r2) /\ get h2 r2 [0] = Ok f64_two53.
Proof.
  exists (fresh_arr 0 8 [1; 8]), (fresh_arr 1 8 [1; 8]), (fun x y z => f64_add (f64_mul x y) z). eexists _, _, _, _.
  split; [apply (chain_dense _ 0 8); [eexists; split; reflexivity|now apply Nat.leb_le|left; apply Ch_new; cbn; lia]|].
  split; [apply (chain_dense _ 1 8); [eexists; split; reflexivity|now apply Nat.leb_le|left; apply Ch_new; cbn; lia]|].
  split; [intros x y [<-|[<-|[]]] ->; reflexivity|].
  do 3 (split; [vm_compute; reflexivity|]). vm_compute; reflexivity.
Qed.
Print Assumptions C51_float_refuted.
