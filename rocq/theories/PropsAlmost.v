(** PropsAlmost.v: what assert_almost_eq! accepts (C87). *)
From Coq Require Import List Arith Lia Bool ZArith.
From Coq Require SpecFloat.
From Verif Require Import Base Spec Layout SpecFacts LayoutFacts Views ViewsFacts ViewsFacts3 Kernels Access HeapFacts KernelFacts OpFacts AccessFacts
  Chain ChainFacts Reduce ReduceFacts PropsViews PropsOps PropsReduce Numeric Almost.
Import ListNotations.
Open Scope res_scope.

Section Exact.
  Context {T : Type} (sub : T -> T -> res T) (ltb eqb : T -> T -> bool) (min_value dflt : T) (far : T -> bool).
  Hypothesis ST : strict_total ltb.
  Variables (h : heap T) (a b : arr) (sh : list nat) (diff : list nat -> T).
  Hypothesis Va : valid h a.
  Hypothesis Vb : valid h b.
  Hypothesis J : join_shape (a_shape a) (a_shape b) sh.
  Hypothesis MD : length sh <= MAX_DIMS.
  Hypothesis P : 0 < prod sh.
  Hypothesis DF : forall idx, in_range idx sh -> exists x y, get h a (bidx (a_shape a) idx) = Ok x /\ get h b (bidx (a_shape b) idx) = Ok y /\ sub x y = Ok (diff idx).
  Hypothesis LEAST : forall idx, in_range idx sh -> le_of ltb min_value (diff idx).

  Lemma almost_exact : exists m, (exists idx, in_range idx sh /\ diff idx = m) /\ (forall idx, in_range idx sh -> le_of ltb (diff idx) m) /\
    exists e, nd_eq eqb h a b = Ok e /\ assert_almost_eq sub ltb eqb min_value dflt far h a b = if far m && negb e then Panic else Ok tt.
  Proof.
    destruct (C12_binary T sub dflt h a b sh Va Vb J MD P) as [H _].
    destruct H as (h1 & r & E & FR).
    { intros idx R. destruct (DF idx R) as (x & y & -> & -> & Q). cbn [bind]. eauto. }
    destruct FR as (_ & _ & SH & V1 & C1 & L1 & G1).
    assert (G : forall idx, in_range idx sh -> get h1 r idx = Ok (diff idx)).
    { intros idx R. rewrite G1 by exact R. destruct (DF idx R) as (x & y & -> & -> & Q). exact Q. }
    destruct (C21_max_partial T ltb min_value ST h1 _ _ r L1 C1) as [(h2 & q & m & EM & FQ & (idx0 & x0 & I0 & Gx0 & Ex0) & UB) _].
    { rewrite SH. exact MD. }
    { rewrite SH. intros idx x R Gx. rewrite G in Gx by exact R. injection Gx as <-. exists (diff idx). split; [reflexivity|now apply LEAST]. }
    rewrite SH in *. exists m. split; [|split].
    - exists idx0. apply in_indices in I0. split; [exact I0|]. rewrite G in Gx0 by exact I0. congruence.
    - intros idx R. apply (UB idx (diff idx) (diff idx)); [now apply in_indices|now apply G|reflexivity].
    - destruct (C18_equality T eqb h a b Va Vb) as (e & EE & _).
      { pose proof (proj1 J). lia. }
      exists e. split; [exact EE|]. unfold assert_almost_eq. rewrite E. cbn [bind fst snd]. rewrite EM. cbn [bind fst snd].
      destruct FQ as (_ & RQ & SQ & VQ & _ & _ & GQ).
      assert (F : first_element h2 q = Ok m).
      { unfold first_element. assert (fig_list (a_shape q) (a_stride q) = Ok [0]) as -> by (rewrite RQ; reflexivity). cbn [bind].
        specialize (GQ [] (Forall2_nil _)). exact GQ. }
      rewrite F. cbn [bind]. destruct (far m); [|reflexivity]. rewrite EE. cbn [bind andb]. destruct e; reflexivity.
  Qed.
End Exact.

(** every element of the two arrays, broadcast together, and their difference *)
Definition differences {T} (sub : T -> T -> res T) (h : heap T) (a b : arr) (sh : list nat) (diff : list nat -> T) : Prop :=
  join_shape (a_shape a) (a_shape b) sh /\
  forall idx, in_range idx sh -> exists x y, get h a (bidx (a_shape a) idx) = Ok x /\ get h b (bidx (a_shape b) idx) = Ok y /\ sub x y = Ok (diff idx).
Definition same_elements {T} (eqb : T -> T -> bool) (h : heap T) (a b : arr) : Prop :=
  a_shape a = a_shape b /\ forall idx, in_range idx (a_shape a) -> exists x y, get h a idx = Ok x /\ get h b idx = Ok y /\ eqb x y = true.

(** ** C87 assert_almost_eq! accepts arrays of one shape whose elements are within the tolerance,
    and no others.  The second half is false; proved is exactly what is accepted: only the
    largest signed difference is compared with the tolerance. *)
Theorem C87_exact_partial : forall T sub (ltb eqb : T -> T -> bool) min_value dflt far, strict_total ltb ->
  forall h a b sh diff, valid h a -> valid h b -> differences sub h a b sh diff -> length sh <= MAX_DIMS -> 0 < prod sh ->
  (forall idx, in_range idx sh -> le_of ltb min_value (diff idx)) ->
  exists m, (exists idx, in_range idx sh /\ diff idx = m) /\ (forall idx, in_range idx sh -> le_of ltb (diff idx) m) /\
    (far m = false \/ same_elements eqb h a b -> assert_almost_eq sub ltb eqb min_value dflt far h a b = Ok tt) /\
    (~ (far m = false \/ same_elements eqb h a b) -> assert_almost_eq sub ltb eqb min_value dflt far h a b = Panic).
Proof.
  intros T sub ltb eqb mv dflt far ST h a b sh diff Va Vb [J DF] MD P LEAST.
  destruct (almost_exact sub ltb eqb mv dflt far ST h a b sh diff Va Vb J MD P DF LEAST) as (m & AT & UB & e & EE & A).
  exists m. split; [exact AT|]. split; [exact UB|]. rewrite A.
  destruct (C18_equality T eqb h a b Va Vb) as (e' & EE' & EQ). { pose proof (proj1 J). lia. }
  rewrite EE in EE'. injection EE' as <-. change (e = true <-> same_elements eqb h a b) in EQ.
  destruct (far m), e; cbn [andb negb]; split; intros H; try reflexivity.
  - exfalso. apply H. right. now apply EQ.
  - destruct H as [H|H]; [discriminate|]. apply EQ in H. discriminate.
  - exfalso. apply H. now left.
  - exfalso. apply H. now left.
Qed.
Print Assumptions C87_exact_partial.

(** arrays within the tolerance are accepted *)
Theorem C87_near_partial : forall T sub (ltb eqb : T -> T -> bool) min_value dflt far, strict_total ltb ->
  forall h a b sh diff, valid h a -> valid h b -> differences sub h a b sh diff -> length sh <= MAX_DIMS -> 0 < prod sh ->
  (forall idx, in_range idx sh -> le_of ltb min_value (diff idx)) ->
  (forall idx, in_range idx sh -> far (diff idx) = false) ->
  assert_almost_eq sub ltb eqb min_value dflt far h a b = Ok tt.
Proof.
  intros T sub ltb eqb mv dflt far ST h a b sh diff Va Vb D MD P LEAST NF.
  destruct (C87_exact_partial T sub ltb eqb mv dflt far ST h a b sh diff Va Vb D MD P LEAST) as (m & (idx & R & <-) & _ & OK & _).
  apply OK. left. now apply NF.
Qed.
Print Assumptions C87_near_partial.

(** a left element that is too large is noticed: with an integer tolerance, what is accepted
    has left <= right + tol everywhere *)
Theorem C87_above_partial : forall min_value dflt tol (h : heap Z) a b sh diff, (0 <= tol)%Z ->
  valid h a -> valid h b -> differences (fun x y => Ok (x - y)%Z) h a b sh diff -> length sh <= MAX_DIMS -> 0 < prod sh ->
  (forall idx, in_range idx sh -> (min_value <= diff idx)%Z) ->
  assert_almost_eq (fun x y => Ok (x - y)%Z) Z.ltb Z.eqb min_value dflt (fun x => tol <? Z.abs x)%Z h a b = Ok tt ->
  forall idx, in_range idx sh -> (diff idx <= tol)%Z.
Proof.
  intros mv dflt tol h a b sh diff T0 Va Vb D MD P LEAST A idx R.
  destruct (C87_exact_partial Z _ Z.ltb Z.eqb mv dflt (fun x => tol <? Z.abs x)%Z C21_ex_order h a b sh diff Va Vb D MD P) as (m & (i & Ri & <-) & UB & _ & NO).
  { intros i Ri. unfold le_of. apply Z.ltb_ge. now apply LEAST. }
  destruct (Z.ltb_spec tol (diff idx)) as [B|B]; [|exact B]. exfalso.
  assert (U : (diff idx <= diff i)%Z) by (specialize (UB idx R); unfold le_of in UB; apply Z.ltb_ge in UB; exact UB).
  rewrite NO in A; [discriminate|]. intros [Q|[SH SE]].
  - apply Z.ltb_ge in Q. lia.
  - destruct D as [J DF]. destruct (DF idx R) as (x & y & Gx & Gy & Q). injection Q as Q.
    assert (ES : sh = a_shape a). { rewrite SH in J |- *. symmetry. eapply join_shape_unique; [|exact J]. apply broadcast_shapes_ok_iff. apply broadcast_shapes_idem. }
    rewrite ES in R. rewrite <- SH in Gy. rewrite (bidx_same _ _ R) in Gx, Gy. destruct (SE idx R) as (x' & y' & Gx' & Gy' & EQ). apply Z.eqb_eq in EQ.
    rewrite Gx in Gx'. rewrite Gy in Gy'. injection Gx' as <-. injection Gy' as <-. lia.
Qed.
Print Assumptions C87_above_partial.

(** [0, 0] and [0, 100] are accepted at tolerance 1: the largest difference is 0 *)
Definition zalmost (tol : Z) := assert_almost_eq (fun x y => Ok (x - y)%Z) Z.ltb Z.eqb (- 128)%Z 0%Z (fun x => tol <? Z.abs x)%Z.
Theorem C87_below_refuted : exists (h : heap Z) a b, valid h a /\ valid h b /\ a_shape a = a_shape b /\
  get h a [1] = Ok 0%Z /\ get h b [1] = Ok 100%Z /\ zalmost 1 h a b = Ok tt.
Proof.
  exists [Some [0; 0]; Some [0; 100]]%Z, (fresh_arr 0 2 [2]), (fresh_arr 1 2 [2]).
  split; [exact (fresh_valid [] [2] [0; 0]%Z 2 eq_refl)|]. split; [exact (fresh_valid [Some [0; 0]%Z] [2] [0; 100]%Z 2 eq_refl)|]. repeat split; vm_compute; reflexivity.
Qed.
Print Assumptions C87_below_refuted.
(** arrays of different shapes are accepted when one broadcasts to the other *)
Theorem C87_shape_refuted : exists (h : heap Z) a b, valid h a /\ valid h b /\ a_shape a = [3] /\ a_shape b = [] /\ zalmost 0 h a b = Ok tt.
Proof.
  exists [Some [5; 5; 5]; Some [5]]%Z, (fresh_arr 0 3 [3]), (fresh_arr 1 1 []).
  split; [exact (fresh_valid [] [3] [5; 5; 5]%Z 3 eq_refl)|]. split; [exact (fresh_valid [Some [5; 5; 5]%Z] [] [5]%Z 1 eq_refl)|]. repeat split; vm_compute; reflexivity.
Qed.
Print Assumptions C87_shape_refuted.
(** in f32, a NaN is accepted beside an element that agrees *)
Definition falmost := assert_almost_eq (fun x y => Ok (fsub f32 x y)) SpecFloat.SFltb SpecFloat.SFeqb f32_min (of_Z f32 0)
  (fun x => SpecFloat.SFltb (fdiv f64 (of_Z f64 1) (of_Z f64 100000)) (SpecFloat.SFabs (convert f64 x))).
Theorem C87_nan_refuted : exists h a b, valid h a /\ valid h b /\ a_shape a = a_shape b /\
  get h a [1] = Ok SpecFloat.S754_nan /\ get h b [1] = Ok (of_Z f32 7) /\ falmost h a b = Ok tt.
Proof.
  exists [Some [of_Z f32 3; SpecFloat.S754_nan]; Some [of_Z f32 3; of_Z f32 7]], (fresh_arr 0 2 [2]), (fresh_arr 1 2 [2]).
  split; [exact (fresh_valid [] [2] [of_Z f32 3; SpecFloat.S754_nan] 2 eq_refl)|].
  split; [exact (fresh_valid [Some [of_Z f32 3; SpecFloat.S754_nan]] [2] [of_Z f32 3; of_Z f32 7] 2 eq_refl)|]. repeat split; vm_compute; reflexivity.
Qed.
Print Assumptions C87_nan_refuted.

(** a matrix and a row: the largest difference is 2, which tolerance 2 accepts and 1 does not;
    the same operands exchanged have the largest difference 0 *)
Definition h87 : heap Z := [Some [7; 5; 9; 6; 4; 9]; Some [5; 4; 9]]%Z.
Definition a87 : arr := fresh_arr 0 6 [2; 3].
Definition b87 : arr := fresh_arr 1 3 [3].
Definition d87 (idx : list nat) : Z := (nth (rank idx [2; 3]%nat) [7; 5; 9; 6; 4; 9] 0 - nth (nth 1 idx 0%nat) [5; 4; 9] 0)%Z.
Example C87_ex : valid h87 a87 /\ valid h87 b87 /\ differences (fun x y => Ok (x - y)%Z) h87 a87 b87 [2; 3] d87 /\
  zalmost 2 h87 a87 b87 = Ok tt /\ zalmost 1 h87 a87 b87 = Panic /\ zalmost 0 h87 b87 a87 = Ok tt.
Proof.
  split; [exact (fresh_valid [] [2; 3] [7; 5; 9; 6; 4; 9]%Z 6 eq_refl)|].
  assert (V : valid h87 b87) by exact (fresh_valid [Some [7; 5; 9; 6; 4; 9]%Z] [3] [5; 4; 9]%Z 3 eq_refl).
  split; [exact V|]. split; [split; [apply broadcast_shapes_ok_iff; reflexivity|]|repeat split; vm_compute; reflexivity].
  intros idx R. apply in_indices in R. cbn in R. repeat (destruct R as [<-|R]; [eexists _, _; repeat split; vm_compute; reflexivity|]). destruct R.
Qed.
