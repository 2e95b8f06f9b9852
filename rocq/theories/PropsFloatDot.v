(** PropsFloatDot.v: accuracy of dot, matmul, bmm and einsum on f32 and f64 arrays, in the
    portable and in the SIMD build. *)
From Coq Require Import List Arith Lia Lqa Bool NArith ZArith QArith Qcanon Qpower Qabs Qminmax Floats.SpecFloat.
From Verif Require Import Base Spec Layout SpecFacts LayoutFacts Views ViewsFacts ViewsFacts2 ViewsFacts3
  Kernels Access HeapFacts KernelFacts OpFacts AccessFacts Chain ChainFacts ViewsFacts4 Reduce ReduceFacts
  PropsViews PropsOps PropsReduce Einsum EinsumFacts EinsumParse EinsumFacts7 PropsEinsum
  Simd SimdFacts SimdRed PropsSimd Numeric NumericFacts FloatErr FloatSum PropsFloatSum Param Exact FloatDot.
Import ListNotations.
Close Scope Qc_scope.
Open Scope res_scope.
Open Scope Q_scope.

Definition qprod (l : list Q) : Q := fold_right Qmult 1 l.
(** what [n] products of [d] factors can lose when they fall below the normal range;
    [large] is the sum of the products with every factor below 1 replaced by 1 *)
Definition underflow (f : fmt) (d n : nat) (large : Q) : Q :=
  let tiny := 2 ^ (2 - emax f - prec f) in
  if (d <=? 1)%nat then 0 else if (d <=? 2)%nat then inject_Z (Z.of_nat n) * tiny
  else ((1 + tiny) ^ Z.of_nat (d - 1) - 1) * large.
(** [r] is the sum of the products of [terms], [d] factors each, up to rounding.  It is
    finite only if every factor is; then
    |r - sum| <= ((1 + 2^-prec)^(n+d-2) - 1) * magnitude, plus the loss by underflow.
    If the products are small enough to stay clear of overflow, it is finite. *)
Definition products_within (f : fmt) (d : nat) (terms : list (list spec_float)) (r : spec_float) : Prop :=
  let n := length terms in
  let bound := (1 + 2 ^ (- prec f)) ^ Z.of_nat (n + d - 2) in
  let total := qsum (map (fun fs => qprod (map qv fs)) terms) in
  let magnitude := qsum (map (fun fs => qprod (map (fun x => Qabs (qv x)) fs)) terms) in
  let large := qsum (map (fun fs => qprod (map (fun x => Qmax 1 (Qabs (qv x))) fs)) terms) in
  in_format f r /\
  (finite r -> Forall (Forall finite) terms /\
    Qabs (qv r - total) <= bound * (magnitude + underflow f d n large) - magnitude) /\
  (Forall (Forall finite) terms -> bound * (large + underflow f d n large) < 2 ^ emax f * (1 - 2 ^ (- prec f - 1)) -> finite r).

(** ** elements *)
Definition finb (x : spec_float) : bool := match x with S754_zero _ | S754_finite _ _ _ => true | _ => false end.
Lemma finb_finite x : finb x = true <-> finite x.
Proof. destruct x; cbn; split; auto; intros; try tauto; discriminate. Qed.
Definition flag (b : bool) : nat := if b then 1 else 0.
Definition elem (f : fmt) (x : spec_float) : poly :=
  mkPoly (Q2Qc (qv x)) (Q2Qc (Qabs (qv x))) (Q2Qc (Qmax 1 (Qabs (qv x)))) 1 (flag (finb x)) (flag (valid_binary (prec f) (emax f) x)) (Some 1%nat).

Lemma this_Q q : this (Q2Qc q) == q. Proof. apply Qred_correct. Qed.

Lemma close_elem f x : close (prec f) (emax f) x (elem f x).
Proof.
  unfold close, pok, elem. cbn [pv pm pM pw pg pf]. split; [|intros V; split; [|split]].
  - rewrite !this_Q. pose proof (Q.le_max_l 1 (Qabs (qv x))). pose proof (Q.le_max_r 1 (Qabs (qv x))). change (inject_Z (Z.of_nat 1)) with 1. repeat split; try lra; try discriminate.
    + destruct (finb x); cbn; lia.
    + destruct (valid_binary _ _ x); cbn; lia.
  - destruct (valid_binary _ _ x); [reflexivity|discriminate].
  - intros B F. apply finb_finite in F. rewrite F in B. cbn in B. lia.
  - intros FB. split; [discriminate|]. split.
    + intros _. unfold top_of, rounds_done, slack, dg. cbn [elem pv pm pM pw pd Nat.leb pred plus]. rewrite !this_Q, growth_0. setoid_replace (qv x - qv x) with 0 by ring. change (Qabs 0) with 0. lra.
    + intros _. apply finb_finite. destruct (finb x); [reflexivity|discriminate].
Qed.
Lemma factor_elem f x : factor (elem f x).
Proof. split; cbn; lia. Qed.

(** ** sums of products of elements *)
Definition poly_of (f : fmt) (terms : list (list spec_float)) : poly :=
  bigsum padd pzero (map (fun fs => bigsum pmul pone (map (elem f) fs)) terms).

Lemma bigsum_hom {A B} (P : A -> B -> Prop) z z' op op' : P z z' -> (forall a b a' b', P a b -> P a' b' -> P (op a a') (op' b b')) ->
  forall l l', Forall2 P l l' -> P (bigsum op z l) (bigsum op' z' l').
Proof. intros Z O l l' F. induction F; cbn [bigsum fold_right]; auto. Qed.
Lemma F2_map {A B C} (P : B -> C -> Prop) (g : A -> B) (k : A -> C) l : (forall x, P (g x) (k x)) -> Forall2 P (map g l) (map k l).
Proof. intros H. induction l; constructor; auto. Qed.

Definition proj_q (sel : poly -> Qc) (a : poly) (q : Q) : Prop := this (sel a) == q.
Lemma poly_of_q f (sel : poly -> Qc) (k : spec_float -> Q) terms :
  this (sel pzero) == 0 -> this (sel pone) == 1 -> (forall a b, this (sel (padd a b)) == this (sel a) + this (sel b)) ->
  (forall a b, this (sel (pmul a b)) == this (sel a) * this (sel b)) -> (forall x, this (sel (elem f x)) == k x) ->
  this (sel (poly_of f terms)) == qsum (map (fun fs => qprod (map k fs)) terms).
Proof.
  intros Z O A M E. unfold poly_of. apply (bigsum_hom (proj_q sel) pzero 0 padd Qplus).
  - exact Z.
  - intros a b a' b' H H'. unfold proj_q in *. now rewrite A, H, H'.
  - apply F2_map. intros fs. apply (bigsum_hom (proj_q sel) pone 1 pmul Qmult).
    + exact O.
    + intros a b a' b' H H'. unfold proj_q in *. now rewrite M, H, H'.
    + apply F2_map. intros x. apply E.
Qed.
Lemma poly_of_w f terms : pw (poly_of f terms) = length terms.
Proof.
  unfold poly_of, bigsum. induction terms as [|fs terms IH]; [reflexivity|]. cbn [map fold_right length padd pw]. rewrite IH. change (S (length terms)) with (1 + length terms)%nat. f_equal.
  induction fs as [|x fs IHf]; [reflexivity|]. cbn [map fold_right pmul pw elem]. rewrite IHf. reflexivity.
Qed.
Lemma prod_d f fs : pd (fold_right pmul pone (map (elem f) fs)) = Some (length fs).
Proof. induction fs as [|x fs IH]; [reflexivity|]. cbn [map fold_right pmul pd elem length]. rewrite IH. reflexivity. Qed.
Lemma poly_of_d f d terms : terms <> [] -> Forall (fun fs => length fs = d) terms -> dg (poly_of f terms) = d.
Proof.
  intros N F. assert (H : terms = [] /\ pd (poly_of f terms) = None \/ pd (poly_of f terms) = Some d).
  { clear N. unfold poly_of, bigsum. induction F as [|fs terms L F IH]; [now left|]. right. cbn [map fold_right padd pd]. rewrite prod_d, L.
    destruct IH as [[_ ->]| ->]; cbn [omax]; [reflexivity|f_equal; lia]. }
  destruct H as [[H _]|H]; [contradiction|]. unfold dg. now rewrite H.
Qed.
(** both flags *)
Definition flagged (sel : poly -> nat) : Prop :=
  sel pzero = 0%nat /\ sel pone = 1%nat /\ (forall a b, sel (padd a b) = (sel a + sel b)%nat) /\ (forall a b, sel (pmul a b) = (sel a * sel b)%nat).
Lemma poly_of_flag f sel k terms : flagged sel -> (forall x, sel (elem f x) = flag (k x)) ->
  (sel (poly_of f terms) <= length terms)%nat /\ (sel (poly_of f terms) = length terms <-> Forall (Forall (fun x => k x = true)) terms).
Proof.
  intros (Z & O & A & M) E.
  assert (PR : forall fs, (sel (fold_right pmul pone (map (elem f) fs)) <= 1)%nat /\ (sel (fold_right pmul pone (map (elem f) fs)) = 1%nat <-> Forall (fun x => k x = true) fs)).
  { induction fs as [|x fs [IH1 IH2]]; cbn [map fold_right].
    - rewrite O. split; [lia|]. split; auto.
    - rewrite M, E. destruct (k x) eqn:K; cbn [flag].
      + split; [lia|]. rewrite Nat.mul_1_l, IH2. split; intros H; [now constructor|now inversion H].
      + split; [lia|]. split; [lia|]. intros H. inversion H. congruence. }
  unfold poly_of, bigsum. induction terms as [|fs terms [IH1 IH2]]; cbn [map fold_right length].
  - rewrite Z. split; [lia|]. split; auto.
  - destruct (PR fs) as [P1 P2]. rewrite A. split; [lia|]. split; intros H.
    + constructor; [apply P2; lia|apply IH2; lia].
    + inversion H as [|? ? H1 H2]; subst. apply P2 in H1. apply IH2 in H2. lia.
Qed.

Lemma close_within f d terms r : std f -> (1 <= d)%nat -> terms <> [] -> Forall (fun fs => length fs = d) terms -> Forall (Forall (in_format f)) terms ->
  close (prec f) (emax f) r (poly_of f terms) -> products_within f d terms r.
Proof.
  intros ST D NE LEN IF [P C].
  pose proof (poly_of_w f terms) as W. pose proof (poly_of_d f d terms NE LEN) as DG.
  assert (N1 : (1 <= length terms)%nat) by (destruct terms; [contradiction|cbn; lia]).
  pose proof (poly_of_q f pv qv terms ltac:(reflexivity) ltac:(reflexivity) ltac:(intros; apply this_add) ltac:(intros; apply this_mul) ltac:(intros; apply this_Q)) as EV.
  pose proof (poly_of_q f pm (fun x => Qabs (qv x)) terms ltac:(reflexivity) ltac:(reflexivity) ltac:(intros; apply this_add) ltac:(intros; apply this_mul) ltac:(intros; apply this_Q)) as EM.
  pose proof (poly_of_q f pM (fun x => Qmax 1 (Qabs (qv x))) terms ltac:(reflexivity) ltac:(reflexivity) ltac:(intros; apply this_add) ltac:(intros; apply this_mul) ltac:(intros; apply this_Q)) as EMM.
  destruct (poly_of_flag f pf (valid_binary (prec f) (emax f)) terms ltac:(repeat split) ltac:(reflexivity)) as [_ PF].
  destruct (poly_of_flag f pg finb terms ltac:(repeat split) ltac:(reflexivity)) as [GL PG].
  assert (FF : Forall (Forall (fun x => finb x = true)) terms <-> Forall (Forall finite) terms).
  { split; intros H; (eapply Forall_impl; [|exact H]); intros fs Hf; (eapply Forall_impl; [|exact Hf]); intros x; apply finb_finite. }
  destruct (C ltac:(rewrite W; apply PF; exact IF)) as (V & NF & CL). unfold products_within. cbv zeta. split; [exact V|].
  assert (ES : slack (prec f) (emax f) d (length terms) (this (pM (poly_of f terms))) == underflow f d (length terms) (qsum (map (fun fs => qprod (map (fun x => Qmax 1 (Qabs (qv x))) fs)) terms))).
  { unfold slack, underflow. cbv zeta. assert (ET : tiny (prec f) (emax f) = 2 ^ (2 - emax f - prec f)) by (unfold tiny, emin; f_equal; lia).
    destruct (d <=? 1)%nat; [reflexivity|]. destruct (d <=? 2)%nat; [now rewrite ET|]. rewrite EMM. unfold tau. rewrite ET. replace (pred d) with (d - 1)%nat by lia. reflexivity. }
  assert (RK : rounds_done (poly_of f terms) = (length terms + d - 2)%nat) by (unfold rounds_done; rewrite W, DG; lia).
  split.
  - intros F. assert (GE : pg (poly_of f terms) = length terms). { destruct (Nat.eq_dec (pg (poly_of f terms)) (length terms)); [assumption|]. exfalso. apply NF; [rewrite W; lia|exact F]. }
    split; [now apply FF, PG|]. destruct (CL ltac:(congruence)) as (_ & DD & _). specialize (DD F). unfold top_of in DD. rewrite RK, W, DG, ES, EV, EM in DD. exact DD.
  - intros FT H. assert (GE : pg (poly_of f terms) = pw (poly_of f terms)) by (rewrite W; now apply PG, FF).
    destruct (CL GE) as (_ & _ & CC). apply CC. unfold cap_of. rewrite RK, W, DG, ES, EMM. exact H.
Qed.

Definition fone (f : fmt) : spec_float := of_Z f 1.
Lemma fone_ok f : std f -> rep (fone f) 1 /\ in_format f (fone f).
Proof.
  intros S. destruct (std_ok f S) as [Hp He]. split.
  - apply of_Z_rep; try assumption. change (Z.abs 1) with 1%Z. apply Z.pow_gt_1; lia.
  - unfold in_format, fone, of_Z. apply (normalize_q (prec f) (emax f) Hp He 1 0 false (tiny (prec f) (emax f))); [apply Qlt_le_weak, tiny_pos|reflexivity].
Qed.
Definition ffmaM (f : fmt) (x y z : spec_float) : res spec_float := Ok (ffma f x y z).

Section Ops.
  Variable f : fmt.
  Hypothesis ST : std f.
  Let Hp := proj1 (std_ok f ST).
  Let He := proj2 (std_ok f ST).
  Let R := close (prec f) (emax f).
  Let zero := S754_zero false.
  Let one := fone f.

  Lemma Radd' x a y b : R x a -> R y b -> R (fadd f x y) (padd a b).
  Proof. apply (close_add (prec f) (emax f) Hp He). Qed.
  Lemma Gadd' a b : factor a \/ factor b -> factor (padd a b).
  Proof. unfold factor. rewrite dg_add. unfold padd. cbn [pw]. lia. Qed.
  Lemma Rmul' x a y b : R x a -> factor a -> R y b -> factor b -> R (fmul f x y) (pmul a b).
  Proof. apply (close_mul (prec f) (emax f) Hp He). Qed.
  Lemma Gmul' a b : factor a -> factor b -> factor (pmul a b).
  Proof. intros [W D] [W' D']. unfold factor. rewrite dg_mul by assumption. unfold pmul. cbn [pw]. nia. Qed.
  Lemma Rmul1' y b : R y b -> factor b -> R (fmul f one y) (pmul pone b).
  Proof. apply (close_mul_one (prec f) (emax f) Hp He); apply (fone_ok f ST). Qed.
  Lemma Gmul1' b : factor b -> factor (pmul pone b).
  Proof. intros H. now rewrite (csr_mul_1 _ _ _ _ poly_csr). Qed.
  Lemma Rfma' x a y b z c : R x a -> factor a -> R y b -> factor b -> R z c -> R (ffma f x y z) (padd (pmul a b) c).
  Proof. apply (close_fma (prec f) (emax f) Hp He). Qed.
  Lemma Rzero' : R zero pzero. Proof. apply close_zero. Qed.
  Lemma Rone' : R one pone. Proof. apply close_one; apply (fone_ok f ST). Qed.
  Lemma in_products : inexact R factor zero one (fadd f) (fmul f) (ffma f) pzero pone padd pmul (elem f).
  Proof.
    constructor; [exact Rzero'|exact Rone'|exact Radd'|exact Gadd'|exact Rmul'|exact Gmul'|exact Rmul1'|exact Gmul1'|exact Rfma'|exact poly_csr|].
    intros x. split; [apply close_elem|apply factor_elem].
  Qed.
End Ops.

(** the values of an array are bit patterns of the format *)
Definition floats (f : fmt) (a : arr) (v : list nat -> spec_float) : Prop := forall idx, in_range idx (a_shape a) -> in_format f (v idx).
(** [x] is a fresh array of shape [sh] whose every element is the sum of the products of
    [terms], [d] factors each, up to rounding *)
Definition sums_products (f : fmt) (h : heap spec_float) (x : res (heap spec_float * arr)) (sh : list nat) (d : nat) (terms : list nat -> list (list spec_float)) : Prop :=
  exists h' r val, x = Ok (h', r) /\ fresh_result h h' r sh (fun idx => Ok (val idx)) /\
    forall idx, in_range idx sh -> products_within f d (terms idx) (val idx).
(** the factors of the terms an einsum adds up for the output element [oidx] *)
Definition einsum_terms {T} (dm : Z -> nat) (subs : list (list Z)) (vals : list (list nat -> T)) (out sm : list Z) (oidx : list nat) : list (list T) :=
  map (fun e => map (fun p => snd p (map (lookup (out ++ sm) (oidx ++ e)) (fst p))) (combine subs vals)) (indices (map dm sm)).

Lemma result_sums f h x sh d terms val' : std f -> (1 <= d)%nat ->
  (forall idx, in_range idx sh -> val' idx = poly_of f (terms idx) /\ terms idx <> [] /\ Forall (fun fs => length fs = d) (terms idx) /\ Forall (Forall (in_format f)) (terms idx)) ->
  result (close (prec f) (emax f)) h x sh val' -> sums_products f h x sh d terms.
Proof.
  intros ST D H (h' & r & val & E & F & V). exists h', r, val. split; [exact E|]. split; [exact F|].
  intros idx I. destruct (H idx I) as (E1 & E2 & E3 & E4). apply close_within; auto. rewrite <- E1. now apply V.
Qed.
Lemma pair_poly f (g k : nat -> spec_float) n : bigsum padd pzero (map (fun t => pmul (elem f (g t)) (elem f (k t))) (seq 0 n)) = poly_of f (map (fun t => [g t; k t]) (seq 0 n)).
Proof.
  unfold poly_of. rewrite map_map. f_equal. apply map_ext. intros t. cbn [map bigsum fold_right]. rewrite (csr_mul_comm _ _ _ _ poly_csr _ pone). now rewrite (csr_mul_1 _ _ _ _ poly_csr).
Qed.
Lemma pair_terms f (g k : nat -> spec_float) n : (0 < n)%nat -> (forall t, (t < n)%nat -> in_format f (g t) /\ in_format f (k t)) ->
  let terms := map (fun t => [g t; k t]) (seq 0 n) in
  terms <> [] /\ Forall (fun fs => length fs = 2%nat) terms /\ Forall (Forall (in_format f)) terms.
Proof.
  intros P H. split; [|split].
  - destruct n; [lia|discriminate].
  - rewrite Forall_map, Forall_forall. reflexivity.
  - rewrite Forall_map, Forall_forall. intros t I. apply in_seq in I. destruct (H t ltac:(lia)). repeat constructor; assumption.
Qed.
Lemma einsum_poly f dm subs vals out sm oidx :
  einsum_value pzero pone padd pmul dm subs (map (fun v idx => elem f (v idx)) vals) out sm oidx = poly_of f (einsum_terms dm subs vals out sm oidx).
Proof.
  unfold einsum_value, poly_of, einsum_terms. rewrite map_map. f_equal. apply map_ext. intros e. f_equal. rewrite map_map.
  revert vals. induction subs as [|s subs IH]; intros [|v vals]; cbn [combine map fst snd]; try reflexivity. f_equal. apply IH.
Qed.

Ltac ranged := repeat (apply Forall2_cons || apply Forall2_nil); try assumption.


Section Pair.
  Context {f : fmt} {h : heap spec_float} {a b : arr} {va vb : list nat -> spec_float}.
  Hypothesis ST : std f.
  Hypothesis HA : holds h a va.
  Hypothesis HB : holds h b vb.
  Hypothesis FA : floats f a va.
  Hypothesis FB : floats f b vb.
  Let IN := in_products f ST.

  Lemma pair_result x sh k (ia ib : list nat -> nat -> list nat) : (0 < k)%nat ->
    (forall idx t, in_range idx sh -> (t < k)%nat -> in_range (ia idx t) (a_shape a) /\ in_range (ib idx t) (a_shape b)) ->
    result (close (prec f) (emax f)) h x sh (fun idx => bigsum padd pzero (map (fun t => pmul (elem f (va (ia idx t))) (elem f (vb (ib idx t)))) (seq 0 k))) ->
    sums_products f h x sh 2 (fun idx => map (fun t => [va (ia idx t); vb (ib idx t)]) (seq 0 k)).
  Proof.
    intros P RG. apply result_sums; [exact ST|lia|]. intros idx I. split; [apply (pair_poly f (fun t => va (ia idx t)) (fun t => vb (ib idx t)))|].
    apply (pair_terms f (fun t => va (ia idx t)) (fun t => vb (ib idx t))); [exact P|]. intros t Ht. destruct (RG idx t I Ht). split; [now apply FA|now apply FB].
  Qed.
  Ltac rg := intros idx t I Ht; repeat match goal with H : a_shape _ = _ |- _ => rewrite H end;
    repeat match goal with H : in_range _ (_ :: _) |- _ => inversion H; clear H; subst | H : Forall2 lt _ _ |- _ => inversion H; clear H; subst end;
    cbn [hd nth]; split; repeat (apply Forall2_cons || apply Forall2_nil); assumption.

  Lemma p_dot n : a_shape a = [n] -> a_shape b = [n] -> (0 < n)%nat ->
    sums_products f h (nd_dot (S754_zero false) (okadd (fadd f)) (okadd (fmul f)) h a b) [] 2 (fun _ => map (fun k => [va [k]; vb [k]]) (seq 0 n)).
  Proof. intros SA SB P. apply (pair_result _ _ _ (fun _ t => [t]) (fun _ t => [t]) P); [rg|exact (i_dot IN h a b va vb HA HB n SA SB P)]. Qed.
  Lemma p_matvec n k : a_shape a = [n; k] -> a_shape b = [k] -> (0 < n)%nat -> (0 < k)%nat ->
    sums_products f h (nd_matmul (S754_zero false) (fone f) (okadd (fadd f)) (okadd (fmul f)) (ffmaM f) h a b) [n] 2
      (fun idx => map (fun t => [va [hd 0%nat idx; t]; vb [t]]) (seq 0 k)).
  Proof. intros SA SB P P'. apply (pair_result _ _ _ (fun idx t => [hd 0%nat idx; t]) (fun _ t => [t]) P'); [rg|exact (i_matvec IN h a b va vb HA HB n k SA SB P P')]. Qed.
  Lemma p_matmul n k m : a_shape a = [n; k] -> a_shape b = [k; m] -> (0 < n)%nat -> (0 < k)%nat -> (0 < m)%nat ->
    sums_products f h (nd_matmul (S754_zero false) (fone f) (okadd (fadd f)) (okadd (fmul f)) (ffmaM f) h a b) [n; m] 2
      (fun idx => map (fun t => [va [nth 0 idx 0%nat; t]; vb [t; nth 1 idx 0%nat]]) (seq 0 k)).
  Proof. intros SA SB P P' P2. apply (pair_result _ _ _ (fun idx t => [nth 0 idx 0%nat; t]) (fun idx t => [t; nth 1 idx 0%nat]) P'); [rg|exact (i_matmul IN h a b va vb HA HB n k m SA SB P P' P2)]. Qed.
  Lemma p_bmm q n k m : a_shape a = [q; n; k] -> a_shape b = [q; k; m] -> (0 < q)%nat -> (0 < n)%nat -> (0 < k)%nat -> (0 < m)%nat ->
    sums_products f h (nd_bmm (S754_zero false) (fone f) (okadd (fadd f)) (okadd (fmul f)) (ffmaM f) h a b) [q; n; m] 2
      (fun idx => map (fun t => [va [nth 0 idx 0%nat; nth 1 idx 0%nat; t]; vb [nth 0 idx 0%nat; t; nth 2 idx 0%nat]]) (seq 0 k)).
  Proof. intros SA SB P P' P2 P3. apply (pair_result _ _ _ (fun idx t => [nth 0 idx 0%nat; nth 1 idx 0%nat; t]) (fun idx t => [nth 0 idx 0%nat; t; nth 2 idx 0%nat]) P2); [rg|exact (i_bmm IN h a b va vb HA HB q n k m SA SB P P' P2 P3)]. Qed.
  Lemma p_smatmul L n k m : L = 2%nat \/ L = 4%nat -> a_shape a = [n; k] -> a_shape b = [k; m] -> (0 < n)%nat -> (0 < k)%nat -> (0 < m)%nat ->
    sums_products f h (snd_matmul L (S754_zero false) (fone f) (fadd f) (fmul f) (ffma f) h a b) [n; m] 2
      (fun idx => map (fun t => [va [nth 0 idx 0%nat; t]; vb [t; nth 1 idx 0%nat]]) (seq 0 k)).
  Proof. intros HL SA SB P P' P2. apply (pair_result _ _ _ (fun idx t => [nth 0 idx 0%nat; t]) (fun idx t => [t; nth 1 idx 0%nat]) P'); [rg|exact (i_smatmul IN h a b va vb HA HB L n k m HL SA SB P P' P2)]. Qed.
  Lemma p_sbmm L q n k m : L = 2%nat \/ L = 4%nat -> a_shape a = [q; n; k] -> a_shape b = [q; k; m] -> (0 < q)%nat -> (0 < n)%nat -> (0 < k)%nat -> (0 < m)%nat ->
    sums_products f h (snd_bmm L (S754_zero false) (fone f) (fadd f) (fmul f) (ffma f) h a b) [q; n; m] 2
      (fun idx => map (fun t => [va [nth 0 idx 0%nat; nth 1 idx 0%nat; t]; vb [nth 0 idx 0%nat; t; nth 2 idx 0%nat]]) (seq 0 k)).
  Proof. intros HL SA SB P P' P2 P3. apply (pair_result _ _ _ (fun idx t => [nth 0 idx 0%nat; nth 1 idx 0%nat; t]) (fun idx t => [nth 0 idx 0%nat; t; nth 2 idx 0%nat]) P2); [rg|exact (i_sbmm IN h a b va vb HA HB L q n k m HL SA SB P P' P2 P3)]. Qed.
End Pair.

(** a well-formed einsum: letters only, every letter of an operand in the output or summed,
    the extent of letter [l] is [dm] [l] in every operand *)
Definition einsum_ok (ops : list arr) (subs : list (list Z)) (out sm : list Z) (dm : Z -> nat) : Prop :=
  Forall (Forall letter) subs /\ Forall letter out /\ NoDup (out ++ sm) /\
  (forall l, In l (out ++ sm) <-> exists s, In s subs /\ In l s) /\ (out ++ sm)%list <> [] /\
  (length (out ++ sm) <= 32)%nat /\ (length ops <= 15)%nat /\
  Forall2 (fun s a => a_shape a = map dm s /\ (length s <= 32)%nat) subs ops /\
  (forall l, In l (out ++ sm) -> (0 < dm l)%nat).

(** the index each operand is read at is in range *)
Lemma einsum_read {T} ops subs (vals : list (list nat -> T)) out sm dm (P : arr -> (list nat -> T) -> Prop) (Q : T -> Prop) oidx e :
  einsum_ok ops subs out sm dm -> Forall2 P ops vals -> (forall a v idx, P a v -> in_range idx (a_shape a) -> Q (v idx)) ->
  in_range oidx (map dm out) -> In e (indices (map dm sm)) ->
  Forall Q (map (fun p => snd p (map (lookup (out ++ sm) (oidx ++ e)) (fst p))) (combine subs vals)).
Proof.
  intros (_ & _ & _ & CV & _ & _ & _ & SH & _) HP HQ I Ie. apply in_indices in Ie.
  assert (RG : in_range (oidx ++ e) (map dm (out ++ sm))).
  { rewrite map_app. apply in_range_app; [|split; assumption]. apply Forall2_length in I. exact I. }
  assert (C : forall s, In s subs -> incl s (out ++ sm)) by (intros s Is l Il; apply CV; eauto).
  clear CV I Ie. revert vals HP. induction SH as [|s a subs ops [Ea _] SH IH]; intros vals HP; [constructor|].
  inversion HP as [|? v ? vals' H1 H2]; subst. cbn [combine map fst snd]. constructor.
  - apply (HQ a v); [exact H1|]. rewrite Ea. apply in_range_lookup; [exact RG|]. apply C. now left.
  - apply IH; [|exact H2]. intros s' Is. apply C. now right.
Qed.
Lemma einsum_lengths ops subs out sm dm : einsum_ok ops subs out sm dm -> length ops = length subs /\ subs <> [].
Proof.
  intros (_ & _ & _ & CV & NE & _ & _ & SH & _). apply Forall2_length in SH. split; [congruence|]. intros ->.
  destruct (out ++ sm)%list as [|l t] eqn:E; [contradiction|]. destruct (proj1 (CV l) (or_introl eq_refl)) as (s & [] & _).
Qed.
Lemma einsum_some ops subs out sm dm : einsum_ok ops subs out sm dm -> indices (map dm sm) <> [].
Proof.
  intros (_ & _ & _ & _ & _ & _ & _ & _ & PD). apply indices_ne, pos_prod'. rewrite Forall_map, Forall_forall. intros l I. apply PD, in_or_app. now right.
Qed.
Lemma einsum_terms_ok f ops subs vals out sm dm oidx : einsum_ok ops subs out sm dm -> Forall2 (floats f) ops vals ->
  in_range oidx (map dm out) ->
  let terms := einsum_terms dm subs vals out sm oidx in
  terms <> [] /\ Forall (fun fs => length fs = length subs) terms /\ Forall (Forall (in_format f)) terms.
Proof.
  intros OK FV I. cbv zeta. unfold einsum_terms. split; [|split].
  - pose proof (einsum_some _ _ _ _ _ OK) as N. destruct (indices (map dm sm)); [contradiction|discriminate].
  - rewrite Forall_map, Forall_forall. intros e _. rewrite map_length, combine_length. destruct (einsum_lengths _ _ _ _ _ OK) as [E _]. apply Forall2_length in FV. lia.
  - rewrite Forall_map, Forall_forall. intros e Ie. apply (einsum_read ops subs vals out sm dm (floats f) (in_format f) oidx e OK FV); [|exact I|exact Ie].
    intros a v idx Fv R. now apply Fv.
Qed.
Lemma p_einsum f (h : heap spec_float) ops subs vals out sm dm x : std f -> einsum_ok ops subs out sm dm -> Forall2 (floats f) ops vals ->
  result (close (prec f) (emax f)) h x (map dm out) (einsum_value pzero pone padd pmul dm subs (map (fun v idx => elem f (v idx)) vals) out sm) ->
  sums_products f h x (map dm out) (length subs) (einsum_terms dm subs vals out sm).
Proof.
  intros ST OK FV. apply result_sums; [exact ST| |].
  - destruct (einsum_lengths _ _ _ _ _ OK) as [_ N]. destruct subs; [contradiction|cbn; lia].
  - intros idx I. split; [apply einsum_poly|]. eapply einsum_terms_ok; eassumption.
Qed.

(** ** C68: products of float arrays are accurate, in the portable and in the SIMD build *)
Theorem C68_dot : forall f h a b va vb n, std f -> holds h a va -> holds h b vb -> floats f a va -> floats f b vb ->
  a_shape a = [n] -> a_shape b = [n] -> (0 < n)%nat ->
  sums_products f h (nd_dot (S754_zero false) (okadd (fadd f)) (okadd (fmul f)) h a b) [] 2 (fun _ => map (fun k => [va [k]; vb [k]]) (seq 0 n)).
Proof. intros. now apply p_dot. Qed.
Print Assumptions C68_dot.
Theorem C68_matvec : forall f h a b va vb n k, std f -> holds h a va -> holds h b vb -> floats f a va -> floats f b vb ->
  a_shape a = [n; k] -> a_shape b = [k] -> (0 < n)%nat -> (0 < k)%nat ->
  sums_products f h (nd_matmul (S754_zero false) (fone f) (okadd (fadd f)) (okadd (fmul f)) (ffmaM f) h a b) [n] 2
    (fun idx => map (fun t => [va [hd 0%nat idx; t]; vb [t]]) (seq 0 k)).
Proof. intros. now apply p_matvec. Qed.
Print Assumptions C68_matvec.
Theorem C68_matmul : forall f h a b va vb n k m, std f -> holds h a va -> holds h b vb -> floats f a va -> floats f b vb ->
  a_shape a = [n; k] -> a_shape b = [k; m] -> (0 < n)%nat -> (0 < k)%nat -> (0 < m)%nat ->
  let terms idx := map (fun t => [va [nth 0 idx 0%nat; t]; vb [t; nth 1 idx 0%nat]]) (seq 0 k) in
  sums_products f h (nd_matmul (S754_zero false) (fone f) (okadd (fadd f)) (okadd (fmul f)) (ffmaM f) h a b) [n; m] 2 terms /\
  forall L, L = 2%nat \/ L = 4%nat -> sums_products f h (snd_matmul L (S754_zero false) (fone f) (fadd f) (fmul f) (ffma f) h a b) [n; m] 2 terms.
Proof. intros. split; [now apply p_matmul|]. intros L HL. now apply p_smatmul. Qed.
Print Assumptions C68_matmul.
Theorem C68_bmm : forall f h a b va vb q n k m, std f -> holds h a va -> holds h b vb -> floats f a va -> floats f b vb ->
  a_shape a = [q; n; k] -> a_shape b = [q; k; m] -> (0 < q)%nat -> (0 < n)%nat -> (0 < k)%nat -> (0 < m)%nat ->
  let terms idx := map (fun t => [va [nth 0 idx 0%nat; nth 1 idx 0%nat; t]; vb [nth 0 idx 0%nat; t; nth 2 idx 0%nat]]) (seq 0 k) in
  sums_products f h (nd_bmm (S754_zero false) (fone f) (okadd (fadd f)) (okadd (fmul f)) (ffmaM f) h a b) [q; n; m] 2 terms /\
  forall L, L = 2%nat \/ L = 4%nat -> sums_products f h (snd_bmm L (S754_zero false) (fone f) (fadd f) (fmul f) (ffma f) h a b) [q; n; m] 2 terms.
Proof. intros. split; [now apply p_bmm|]. intros L HL. now apply p_sbmm. Qed.
Print Assumptions C68_bmm.
(** einsum of any number of operands: products of as many factors *)
Theorem C68_einsum : forall f h ops subs vals out sm dm, std f -> einsum_ok ops subs out sm dm -> Forall2 (holds h) ops vals -> Forall2 (floats f) ops vals ->
  sums_products f h (nd_einsum (S754_zero false) (fone f) (okadd (fadd f)) (okadd (fmul f)) (ffmaM f) h ops subs out) (map dm out) (length subs)
    (einsum_terms dm subs vals out sm) /\
  forall L, L = 2%nat \/ L = 4%nat ->
  sums_products f h (snd_einsum L (S754_zero false) (fone f) (fadd f) (fmul f) (ffma f) h ops subs out) (map dm out) (length subs)
    (einsum_terms dm subs vals out sm).
Proof.
  intros f h ops subs vals out sm dm ST OK HV FV. pose proof OK as (HS & HO & ND & CV & NE & L32 & L15 & SH & PD). split.
  - apply (p_einsum f h ops subs vals out sm dm); auto. exact (i_einsum (in_products f ST) h ops subs vals out sm dm HS HO ND CV NE L32 L15 SH HV PD).
  - intros L HL. apply (p_einsum f h ops subs vals out sm dm); auto. exact (i_seinsum (in_products f ST) h ops subs vals out sm dm HS HO ND CV NE L32 L15 SH HV PD L HL).
Qed.
Print Assumptions C68_einsum.

(** ** what [products_within] says *)
Lemma qsum_nonneg l : Forall (fun q => 0 <= q) l -> 0 <= qsum l.
Proof. intros F. unfold qsum. induction F as [|x l H F IH]; cbn [fold_right]; lra. Qed.
Lemma qprod_nonneg l : Forall (fun q => 0 <= q) l -> 0 <= qprod l.
Proof. intros F. unfold qprod. induction F as [|x l H F IH]; cbn [fold_right]; [lra|]. now apply Qmult_le_0_compat. Qed.
Lemma qsum_prod_nonneg (k : spec_float -> Q) terms : (forall x, 0 <= k x) -> 0 <= qsum (map (fun fs => qprod (map k fs)) terms).
Proof. intros K. apply qsum_nonneg. rewrite Forall_map, Forall_forall. intros fs _. apply qprod_nonneg. rewrite Forall_map, Forall_forall. auto. Qed.
Lemma underflow_nonneg f d n large : 0 <= large -> 0 <= underflow f d n large.
Proof.
  intros L. unfold underflow. cbv zeta. pose proof (two_pos (2 - emax f - prec f)) as T. set (t := 2 ^ (2 - emax f - prec f)) in *.
  destruct (d <=? 1)%nat; [lra|]. destruct (d <=? 2)%nat.
  - apply Qmult_le_0_compat; [|lra]. rewrite <- (Zle_Qle 0). lia.
  - apply Qmult_le_0_compat; [|exact L]. assert (1 <= (1 + t) ^ Z.of_nat (d - 1)); [|lra].
    apply Qpower_1_le; [lra|lia].
Qed.
(** in first order: k roundings lose at most 2 k 2^-prec, as long as k <= 2^prec *)
Theorem C68_bound : forall f d terms r, (0 <= prec f)%Z -> products_within f d terms r -> finite r ->
  let k := (length terms + d - 2)%nat in (Z.of_nat k <= 2 ^ prec f)%Z ->
  Qabs (qv r - qsum (map (fun fs => qprod (map qv fs)) terms)) <=
    2 * inject_Z (Z.of_nat k) * 2 ^ (- prec f) * qsum (map (fun fs => qprod (map (fun x => Qabs (qv x)) fs)) terms) +
    3 * underflow f d (length terms) (qsum (map (fun fs => qprod (map (fun x => Qmax 1 (Qabs (qv x))) fs)) terms)).
Proof.
  intros f d terms r P (_ & A & _) F. cbv zeta. intros LE. destruct (A F) as [_ A']. cbv zeta in A'. eapply Qle_trans; [exact A'|]. clear A A'.
  set (M := qsum (map (fun fs => qprod (map (fun x => Qabs (qv x)) fs)) terms)).
  assert (HM : 0 <= M) by (apply qsum_prod_nonneg; intros; apply Qabs_nonneg).
  set (V := underflow _ _ _ _). assert (HV : 0 <= V).
  { apply underflow_nonneg, qsum_prod_nonneg. intros x. pose proof (Q.le_max_l 1 (Qabs (qv x))). lra. }
  set (k := (length terms + d - 2)%nat) in *. fold (growth (prec f) k). assert (KU : inject_Z (Z.of_nat k) * 2 ^ (- prec f) <= 1).
  { setoid_replace 1 with (2 ^ prec f * 2 ^ (- prec f)).
    - apply Qmult_le_compat_r; [|apply Qlt_le_weak, two_pos]. rewrite <- two_Z by exact P. rewrite <- Zle_Qle. exact LE.
    - rewrite <- two_add. now replace (prec f + - prec f)%Z with 0%Z by lia. }
  pose proof (growth_le (prec f) k KU) as G. set (u := inject_Z (Z.of_nat k) * 2 ^ (- prec f)) in *.
  setoid_replace (2 * inject_Z (Z.of_nat k) * 2 ^ (- prec f)) with (2 * u) in G by (unfold u; ring).
  setoid_replace (2 * inject_Z (Z.of_nat k) * 2 ^ (- prec f)) with (2 * u) by (unfold u; ring).
  set (B := growth (prec f) k) in *. clearbody M V B u.
  assert (X : (B - 1) * M <= 2 * u * M) by (apply Qmult_le_compat_r; assumption).
  assert (Y : B * V <= 3 * V) by (apply Qmult_le_compat_r; [lra|assumption]).
  setoid_replace (B * (M + V) - M) with ((B - 1) * M + B * V) by ring. lra.
Qed.
Print Assumptions C68_bound.
(** two builds differ by at most twice the bound *)
Theorem C68_builds_agree : forall f d terms r s, products_within f d terms r -> products_within f d terms s -> finite r -> finite s ->
  let bound := (1 + 2 ^ (- prec f)) ^ Z.of_nat (length terms + d - 2) in
  let magnitude := qsum (map (fun fs => qprod (map (fun x => Qabs (qv x)) fs)) terms) in
  let large := qsum (map (fun fs => qprod (map (fun x => Qmax 1 (Qabs (qv x))) fs)) terms) in
  Qabs (qv r - qv s) <= 2 * (bound * (magnitude + underflow f d (length terms) large) - magnitude).
Proof.
  intros f d terms r s (_ & A & _) (_ & B & _) Fr Fs. destruct (A Fr) as [_ A']. destruct (B Fs) as [_ B']. cbv zeta in *.
  set (t := qsum (map (fun fs => qprod (map qv fs)) terms)) in *.
  setoid_replace (qv r - qv s) with ((qv r - t) + - (qv s - t)) by ring.
  eapply Qle_trans; [apply Qabs_triangle|]. rewrite Qabs_opp. lra.
Qed.
Print Assumptions C68_builds_agree.

(** ** integers *)
(** the elements of [a] are the integers [z] *)
Definition holds_int (h : heap spec_float) (a : arr) (z : list nat -> Z) : Prop :=
  length (a_stride a) = length (a_shape a) /\ forall idx, in_range idx (a_shape a) -> exists x, get h a idx = Ok x /\ rep x (z idx).
(** [x] is a fresh array of shape [sh] holding the integers [val], wherever [large] is below 2^prec *)
Definition exact_ints (f : fmt) (h : heap spec_float) (x : res (heap spec_float * arr)) (sh : list nat) (val large : list nat -> Z) : Prop :=
  exists h' r v, x = Ok (h', r) /\ fresh_result h h' r sh (fun idx => Ok (v idx)) /\
    forall idx, in_range idx sh -> (large idx < 2 ^ prec f)%Z -> rep (v idx) (val idx).
Definition big (z : Z) : Z := Z.max 1 (Z.abs z).

Lemma fma_rep p em x y z a b c : (2 <= p)%Z -> (p + 2 <= em)%Z -> rep x a -> rep y b -> rep z c ->
  (Z.abs (a * b) < 2 ^ p)%Z -> (Z.abs (a * b + c) < 2 ^ p)%Z -> rep (SFfma p em x y z) (a * b + c).
Proof.
  intros Hp He Rx Ry Rz A B.
  pose proof (mul_rep p em Hp He x y a b Rx Ry A) as MR.
  assert (AD : rep (SFadd p em (SFmul p em x y) z) (a * b + c)) by (apply add_rep; assumption).
  destruct x as [s1|s1| |s1 m1 e1]; try exact AD. destruct y as [s2|s2| |s2 m2 e2]; try exact AD.
  destruct z as [s3|s3| |s3 m3 e3]; try exact AD.
  - cbn [rep] in Rz. subst c. rewrite Z.add_0_r. exact MR.
  - cbn [rep] in Rz. contradiction.
  - contradiction.
  - cbn [SFfma]. assert (PR : rep (S754_finite (xorb s1 s2) (m1 * m2) (e1 + e2)) (a * b)).
    { destruct Rx as (N1 & S1 & E1 & M1). destruct Ry as (N2 & S2 & E2 & M2). cbn [rep]. split; [nia|]. split; [subst; now apply (sign_mul p em Hp He)|]. split; [lia|].
      rewrite Pos2Z.inj_mul, M1, M2, Z.abs_mul. replace (- (e1 + e2))%Z with (- e1 + - e2)%Z by lia. rewrite Z.pow_add_r by lia. ring. }
    rewrite (rep_aligned _ _ _ (a * b)) by (try exact PR; lia). rewrite (rep_aligned _ _ _ c) by (try exact Rz; lia). rewrite <- Z.mul_add_distr_r.
    replace (Z.min (e1 + e2) e3) with (- (- Z.min (e1 + e2) e3))%Z at 2 by lia. apply normalize_rep; try assumption.
    destruct PR as (_ & _ & ? & _), Rz as (_ & _ & ? & _). lia.
Qed.

(** an exact integer and a bound of its magnitude *)
Definition iadd (a b : Z * N) : Z * N := ((fst a + fst b)%Z, (snd a + snd b)%N).
Definition imul (a b : Z * N) : Z * N := ((fst a * fst b)%Z, (snd a * snd b)%N).
Definition izero : Z * N := (0%Z, 0%N).
Definition ione : Z * N := (1%Z, 1%N).
Lemma int_csr : is_csr izero ione iadd imul.
Proof. split; intros; repeat match goal with x : (Z * N)%type |- _ => destruct x end; unfold iadd, imul, izero, ione; cbn [fst snd]; f_equal; try ring; lia. Qed.
Definition zof (x : spec_float) : option Z :=
  match x with
  | S754_zero _ => Some 0%Z
  | S754_finite s m e => if ((e <=? 0) && (Zpos m mod 2 ^ (- e) =? 0))%Z then Some (cond_Zopp s (Zpos m / 2 ^ (- e))) else None
  | _ => None
  end.
Lemma zof_rep x v : zof x = Some v <-> rep x v.
Proof.
  destruct x as [s|s| |s m e]; cbn [zof rep]; try (split; [discriminate|contradiction]).
  - split; intros H; congruence.
  - split.
    + destruct (Z.leb_spec e 0) as [He|]; [|discriminate]. destruct (Z.eqb_spec (Zpos m mod 2 ^ (- e)) 0) as [Hm|]; [|discriminate]. cbn [andb]. intros [= <-].
      pose proof (Z.pow_pos_nonneg 2 (- e) ltac:(lia) ltac:(lia)) as P2. pose proof (Z.div_mod (Zpos m) (2 ^ (- e)) ltac:(lia)) as DM. rewrite Hm in DM.
      set (d := (Zpos m / 2 ^ (- e))%Z) in *. assert (0 < d)%Z by nia. destruct s; cbn [cond_Zopp]; (split; [lia|]); (split; [symmetry; apply Z.ltb_lt || apply Z.ltb_ge; lia|]); (split; [lia|]).
      * rewrite Z.abs_opp, Z.abs_eq by lia. lia.
      * rewrite Z.abs_eq by lia. lia.
    + intros (N & S1 & He & Hm). pose proof (Z.pow_pos_nonneg 2 (- e) ltac:(lia) ltac:(lia)) as P2. rewrite (proj2 (Z.leb_le _ _) He), Hm, Z.mod_mul, Z.div_mul by lia. cbn.
      f_equal. subst s. destruct (Z.ltb_spec v 0); cbn [cond_Zopp]; lia.
Qed.
Definition ielem (f : fmt) (x : spec_float) : Z * N := match zof x with Some v => (v, Z.to_N (big v)) | None => (0%Z, Z.to_N (2 ^ prec f)) end.
Definition irel (f : fmt) (x : spec_float) (a : Z * N) : Prop := (Z.abs (fst a) <= Z.of_N (snd a))%Z /\ ((Z.of_N (snd a) < 2 ^ prec f)%Z -> rep x (fst a)).
Definition ifactor (a : Z * N) : Prop := (1 <= Z.of_N (snd a))%Z.

Lemma in_integers f : std f -> inexact (irel f) ifactor (S754_zero false) (fone f) (fadd f) (fmul f) (ffma f) izero ione iadd imul (ielem f).
Proof.
  intros ST. destruct (std_ok f ST) as [Hp He]. destruct (fone_ok f ST) as [R1 _]. unfold irel, ifactor.
  constructor.
  - cbn. split; [lia|reflexivity].
  - cbn [ione fst snd]. split; [reflexivity|]. intros _. exact R1.
  - intros x [v M] y [w N] [A B] [C D]. cbn [iadd fst snd] in *. rewrite N2Z.inj_add in *. split; [lia|]. intros L. apply add_rep; [exact Hp|exact He|apply B; lia|apply D; lia|lia].
  - intros [v M] [w N]. cbn [iadd fst snd]. lia.
  - intros x [v M] y [w N] [A B] GA [C D] GB. cbn [imul fst snd] in *. rewrite N2Z.inj_mul in *. pose proof (Z.abs_mul v w). set (m := Z.of_N M) in *. set (n := Z.of_N N) in *. split; [nia|]. intros L. apply mul_rep; [exact Hp|exact He|apply B; nia|apply D; nia|nia].
  - intros [v M] [w N]. cbn [imul fst snd]. rewrite N2Z.inj_mul. nia.
  - intros y [w N] [C D] GB. cbn [imul ione fst snd] in *. rewrite N.mul_1_l. split; [lia|]. intros L. apply mul_rep; [exact Hp|exact He|exact R1|now apply D|lia].
  - intros [w N]. cbn [imul ione fst snd]. lia.
  - intros x [v M] y [w N] z [c K] [A B] GA [C D] GB [F G]. cbn [imul iadd fst snd] in *. rewrite N2Z.inj_add, N2Z.inj_mul in *. set (m := Z.of_N M) in *. set (n := Z.of_N N) in *. set (k := Z.of_N K) in *.
    assert (0 <= k)%Z by lia. assert (Z.abs (v * w) <= m * n)%Z by (rewrite Z.abs_mul; nia). split; [lia|].
    intros L. apply fma_rep; [exact Hp|exact He|apply B; nia|apply D; nia|apply G; nia|lia|lia].
  - apply int_csr.
  - intros x. unfold ielem. destruct (zof x) as [v|] eqn:E; cbn [fst snd].
    + apply zof_rep in E. unfold big. rewrite Z2N.id by lia. split; [split; [lia|auto]|lia].
    + pose proof (Z.pow_pos_nonneg 2 (prec f) ltac:(lia) ltac:(lia)). rewrite Z2N.id by lia. split; [split; lia|lia].
Qed.

(** what the array holds, as a function *)
Definition read (h : heap spec_float) (a : arr) (idx : list nat) : spec_float := match get h a idx with Ok x => x | _ => S754_nan end.
Lemma int_holds h a z : holds_int h a z -> holds h a (read h a).
Proof. intros [L H]. split; [exact L|]. intros idx I. destruct (H idx I) as (x & G & _). unfold read. now rewrite G. Qed.
Lemma int_read h a z idx f : holds_int h a z -> in_range idx (a_shape a) -> ielem f (read h a idx) = (z idx, Z.to_N (big (z idx))).
Proof. intros [_ H] I. destruct (H idx I) as (x & G & R). unfold read, ielem. rewrite G. apply zof_rep in R. now rewrite R. Qed.
Lemma int_result f h x sh val' val large : (forall idx, in_range idx sh -> fst (val' idx) = val idx /\ Z.of_N (snd (val' idx)) = large idx) ->
  result (irel f) h x sh val' -> exact_ints f h x sh val large.
Proof.
  intros H (h' & r & v & E & F & V). exists h', r, v. split; [exact E|]. split; [exact F|]. intros idx I L. destruct (H idx I) as [E1 E2]. rewrite <- E1. apply (V idx I). now rewrite E2.
Qed.
Lemma bigsum_pair {A} (l : list A) (g : A -> Z * N) (v m : A -> Z) : (forall t, In t l -> fst (g t) = v t /\ Z.of_N (snd (g t)) = m t) ->
  fst (bigsum iadd izero (map g l)) = bigsum Z.add 0%Z (map v l) /\ Z.of_N (snd (bigsum iadd izero (map g l))) = bigsum Z.add 0%Z (map m l).
Proof.
  unfold bigsum. induction l as [|t l IH]; intros H; [now split|]. cbn [map fold_right iadd fst snd]. destruct (H t (or_introl eq_refl)) as [-> E].
  destruct IH as [-> E']; [intros; apply H; now right|]. rewrite N2Z.inj_add, E, E'. now split.
Qed.

Section IntPair.
  Context {f : fmt} {h : heap spec_float} {a b : arr} {za zb : list nat -> Z}.
  Hypothesis ST : std f.
  Hypothesis HA : holds_int h a za.
  Hypothesis HB : holds_int h b zb.
  Lemma int_pair x sh k (ia ib : list nat -> nat -> list nat) :
    (forall idx t, in_range idx sh -> (t < k)%nat -> in_range (ia idx t) (a_shape a) /\ in_range (ib idx t) (a_shape b)) ->
    result (irel f) h x sh (fun idx => bigsum iadd izero (map (fun t => imul (ielem f (read h a (ia idx t))) (ielem f (read h b (ib idx t)))) (seq 0 k))) ->
    exact_ints f h x sh (fun idx => bigsum Z.add 0%Z (map (fun t => za (ia idx t) * zb (ib idx t))%Z (seq 0 k)))
      (fun idx => bigsum Z.add 0%Z (map (fun t => big (za (ia idx t)) * big (zb (ib idx t)))%Z (seq 0 k))).
  Proof.
    intros RG. apply int_result. intros idx I. apply bigsum_pair. intros t It. apply in_seq in It. destruct (RG idx t I ltac:(lia)) as [R1 R2].
    rewrite (int_read h a za _ f HA R1), (int_read h b zb _ f HB R2). cbn [imul fst snd]. split; [reflexivity|]. rewrite N2Z.inj_mul, !Z2N.id by (unfold big; lia). reflexivity.
  Qed.
End IntPair.
Ltac rg := intros idx t I Ht; repeat match goal with H : a_shape _ = _ |- _ => rewrite H end;
    repeat match goal with H : in_range _ (_ :: _) |- _ => inversion H; clear H; subst | H : Forall2 lt _ _ |- _ => inversion H; clear H; subst end;
    cbn [hd nth]; split; repeat (apply Forall2_cons || apply Forall2_nil); assumption.

(** integers below 2^prec are multiplied and added exactly, in any order: f32 and f64 arrays of
    integers have the exact product whenever the sum of the magnitudes (counting 0 as 1) is below 2^prec *)
Theorem C68_integers : forall f h a b za zb, std f -> holds_int h a za -> holds_int h b zb ->
  let zero := S754_zero false in let one := fone f in let add := okadd (fadd f) in let mul := okadd (fmul f) in
  (forall n, a_shape a = [n] -> a_shape b = [n] -> (0 < n)%nat ->
    exact_ints f h (nd_dot zero add mul h a b) [] (fun _ => bigsum Z.add 0%Z (map (fun k => za [k] * zb [k])%Z (seq 0 n)))
      (fun _ => bigsum Z.add 0%Z (map (fun k => big (za [k]) * big (zb [k]))%Z (seq 0 n)))) /\
  (forall n k, a_shape a = [n; k] -> a_shape b = [k] -> (0 < n)%nat -> (0 < k)%nat ->
    exact_ints f h (nd_matmul zero one add mul (ffmaM f) h a b) [n]
      (fun idx => bigsum Z.add 0%Z (map (fun t => za [hd 0%nat idx; t] * zb [t])%Z (seq 0 k)))
      (fun idx => bigsum Z.add 0%Z (map (fun t => big (za [hd 0%nat idx; t]) * big (zb [t]))%Z (seq 0 k)))) /\
  (forall n k m, a_shape a = [n; k] -> a_shape b = [k; m] -> (0 < n)%nat -> (0 < k)%nat -> (0 < m)%nat ->
    let val idx := bigsum Z.add 0%Z (map (fun t => za [nth 0 idx 0%nat; t] * zb [t; nth 1 idx 0%nat])%Z (seq 0 k)) in
    let large idx := bigsum Z.add 0%Z (map (fun t => big (za [nth 0 idx 0%nat; t]) * big (zb [t; nth 1 idx 0%nat]))%Z (seq 0 k)) in
    exact_ints f h (nd_matmul zero one add mul (ffmaM f) h a b) [n; m] val large /\
    forall L, L = 2%nat \/ L = 4%nat -> exact_ints f h (snd_matmul L zero one (fadd f) (fmul f) (ffma f) h a b) [n; m] val large) /\
  (forall q n k m, a_shape a = [q; n; k] -> a_shape b = [q; k; m] -> (0 < q)%nat -> (0 < n)%nat -> (0 < k)%nat -> (0 < m)%nat ->
    let val idx := bigsum Z.add 0%Z (map (fun t => za [nth 0 idx 0%nat; nth 1 idx 0%nat; t] * zb [nth 0 idx 0%nat; t; nth 2 idx 0%nat])%Z (seq 0 k)) in
    let large idx := bigsum Z.add 0%Z (map (fun t => big (za [nth 0 idx 0%nat; nth 1 idx 0%nat; t]) * big (zb [nth 0 idx 0%nat; t; nth 2 idx 0%nat]))%Z (seq 0 k)) in
    exact_ints f h (nd_bmm zero one add mul (ffmaM f) h a b) [q; n; m] val large /\
    forall L, L = 2%nat \/ L = 4%nat -> exact_ints f h (snd_bmm L zero one (fadd f) (fmul f) (ffma f) h a b) [q; n; m] val large).
Proof.
  intros f h a b za zb ST HA HB. cbv zeta. pose proof (in_integers f ST) as IN. pose proof (int_holds h a za HA) as VA. pose proof (int_holds h b zb HB) as VB.
  split; [|split; [|split]].
  - intros n SA SB P. apply (int_pair HA HB _ _ _ (fun _ t => [t]) (fun _ t => [t])); [rg|exact (i_dot IN h a b _ _ VA VB n SA SB P)].
  - intros n k SA SB P P'. apply (int_pair HA HB _ _ _ (fun idx t => [hd 0%nat idx; t]) (fun _ t => [t])); [rg|exact (i_matvec IN h a b _ _ VA VB n k SA SB P P')].
  - intros n k m SA SB P P' P2. split; [|intros L HL]; apply (int_pair HA HB _ _ _ (fun idx t => [nth 0 idx 0%nat; t]) (fun idx t => [t; nth 1 idx 0%nat])); try solve [rg].
    + exact (i_matmul IN h a b _ _ VA VB n k m SA SB P P' P2).
    + exact (i_smatmul IN h a b _ _ VA VB L n k m HL SA SB P P' P2).
  - intros q n k m SA SB P P' P2 P3. split; [|intros L HL]; apply (int_pair HA HB _ _ _ (fun idx t => [nth 0 idx 0%nat; nth 1 idx 0%nat; t]) (fun idx t => [nth 0 idx 0%nat; t; nth 2 idx 0%nat])); try solve [rg].
    + exact (i_bmm IN h a b _ _ VA VB q n k m SA SB P P' P2 P3).
    + exact (i_sbmm IN h a b _ _ VA VB L q n k m HL SA SB P P' P2 P3).
Qed.
Print Assumptions C68_integers.

Lemma bigprod_pair (l : list (Z * N)) (v m : list Z) : Forall2 (fun a z => fst a = z) l v -> Forall2 (fun a z => Z.of_N (snd a) = z) l m ->
  fst (bigsum imul ione l) = bigsum Z.mul 1%Z v /\ Z.of_N (snd (bigsum imul ione l)) = bigsum Z.mul 1%Z m.
Proof.
  intros F G. unfold bigsum. revert m G. induction F as [|a z l v E F IH]; intros m G; inversion G as [|? y ? m' E' G']; subst; [now split|].
  destruct (IH m' G') as [A B]. cbn [fold_right imul fst snd]. rewrite A, N2Z.inj_mul, B. now split.
Qed.
Theorem C68_einsum_integers : forall f h ops subs zs out sm dm, std f -> einsum_ok ops subs out sm dm -> Forall2 (holds_int h) ops zs ->
  let val := einsum_value 0%Z 1%Z Z.add Z.mul dm subs zs out sm in
  let large := einsum_value 0%Z 1%Z Z.add Z.mul dm subs (map (fun z idx => big (z idx)) zs) out sm in
  exact_ints f h (nd_einsum (S754_zero false) (fone f) (okadd (fadd f)) (okadd (fmul f)) (ffmaM f) h ops subs out) (map dm out) val large /\
  forall L, L = 2%nat \/ L = 4%nat -> exact_ints f h (snd_einsum L (S754_zero false) (fone f) (fadd f) (fmul f) (ffma f) h ops subs out) (map dm out) val large.
Proof.
  intros f h ops subs zs out sm dm ST OK HZ. cbv zeta. pose proof (in_integers f ST) as IN. pose proof OK as (HS & HO & ND & CV & NE & L32 & L15 & SH & PD).
  set (vals := map (read h) ops). assert (HV : Forall2 (holds h) ops vals).
  { unfold vals. clear - HZ. induction HZ; constructor; auto. eapply int_holds; eassumption. }
  assert (EQ : forall idx, in_range idx (map dm out) ->
    let V := einsum_value izero ione iadd imul dm subs (map (fun v i => ielem f (v i)) vals) out sm idx in
    fst V = einsum_value 0%Z 1%Z Z.add Z.mul dm subs zs out sm idx /\
    Z.of_N (snd V) = einsum_value 0%Z 1%Z Z.add Z.mul dm subs (map (fun z i => big (z i)) zs) out sm idx).
  { intros idx I. cbv zeta. unfold einsum_value. apply bigsum_pair. intros e Ie. apply in_indices in Ie.
    assert (RG : in_range (idx ++ e) (map dm (out ++ sm))).
    { rewrite map_app. apply in_range_app; [|split; assumption]. apply Forall2_length in I. exact I. }
    assert (C : forall s, In s subs -> incl s (out ++ sm)) by (intros s Is l Il; apply CV; eauto).
    apply bigprod_pair; clear - HZ SH RG C; revert zs HZ; unfold vals; clear vals; (induction SH as [|s a subs ops [Ea _] SH IH]; intros zs HZ; inversion HZ as [|? z ? zs' H1 H2]; subst; [constructor|]);
      cbn [map combine fst snd]; (constructor; [|apply IH; [intros s' Is; apply C; now right|exact H2]]);
      rewrite (int_read h a z _ f H1) by (rewrite Ea; apply in_range_lookup; [exact RG|apply C; now left]); cbn [fst snd]; [reflexivity|].
    apply Z2N.id. unfold big. lia. }
  split; [|intros L HL]; apply (int_result f h _ _ (einsum_value izero ione iadd imul dm subs (map (fun v i => ielem f (v i)) vals) out sm)); try exact EQ.
  - exact (i_einsum IN h ops subs vals out sm dm HS HO ND CV NE L32 L15 SH HV PD).
  - exact (i_seinsum IN h ops subs vals out sm dm HS HO ND CV NE L32 L15 SH HV PD L HL).
Qed.
Print Assumptions C68_einsum_integers.

(** ** Examples: 0.1 .. 0.6 as a 2 x 3 matrix times its transpose, and a three-operand einsum *)
Definition ex_t : arr := mkArr 0 0 6 6 [3; 2]%nat [1; 3]%nat (mkFlags false true true true true false).
Lemma read_holds h a : length (a_stride a) = length (a_shape a) -> forallb (fun idx => match get h a idx with Ok _ => true | _ => false end) (indices (a_shape a)) = true -> holds h a (read h a).
Proof. intros L F. split; [exact L|]. intros idx I. rewrite forallb_forall in F. specialize (F idx (proj2 (in_indices _ _) I)). unfold read. now destruct (get h a idx). Qed.
Lemma read_floats f h a : forallb (fun idx => valid_binary (prec f) (emax f) (read h a idx)) (indices (a_shape a)) = true -> floats f a (read h a).
Proof. intros F idx I. rewrite forallb_forall in F. apply F. now apply in_indices. Qed.
Example C68_ex : std f32 /\ holds ex_h ex_a (read ex_h ex_a) /\ floats f32 ex_a (read ex_h ex_a) /\ holds ex_h ex_t (read ex_h ex_t) /\ floats f32 ex_t (read ex_h ex_t) /\
  exists h' r x, nd_matmul (S754_zero false) (fone f32) (okadd (fadd f32)) (okadd (fmul f32)) (ffmaM f32) ex_h ex_a ex_t = Ok (h', r) /\ get h' r [0; 1]%nat = Ok x /\ finite x /\
    products_within f32 2 (map (fun t => [read ex_h ex_a [0%nat; t]; read ex_h ex_t [t; 1%nat]]) (seq 0 3)) x /\
    (* not exact *) ~ qv x == qsum (map (fun t => qv (read ex_h ex_a [0%nat; t]) * qv (read ex_h ex_t [t; 1%nat])) (seq 0 3)).
Proof.
  assert (SF : std f32) by now left.
  assert (H1 : holds ex_h ex_a (read ex_h ex_a)) by (apply read_holds; reflexivity). assert (H2 : holds ex_h ex_t (read ex_h ex_t)) by (apply read_holds; reflexivity).
  assert (F1 : floats f32 ex_a (read ex_h ex_a)) by (apply read_floats; reflexivity). assert (F2 : floats f32 ex_t (read ex_h ex_t)) by (apply read_floats; reflexivity).
  split; [exact SF|]. split; [exact H1|]. split; [exact F1|]. split; [exact H2|]. split; [exact F2|].
  destruct (C68_matmul f32 ex_h ex_a ex_t _ _ 2 3 2 SF H1 H2 F1 F2 eq_refl eq_refl ltac:(lia) ltac:(lia) ltac:(lia)) as [(h' & r & v & E & FR & W) _].
  assert (I : in_range [0; 1]%nat [2; 2]%nat) by (repeat constructor).
  exists h', r, (v [0; 1]%nat). split; [exact E|]. assert (G : get h' r [0; 1]%nat = Ok (v [0; 1]%nat)) by (destruct FR as (_ & _ & _ & _ & _ & _ & G); now apply G).
  split; [exact G|]. specialize (W _ I). vm_compute in E. injection E as <- <-. vm_compute in G. injection G as G. rewrite <- G in *. split; [exact Logic.I|]. split; [exact W|].
  vm_compute. discriminate.
Qed.
(** ijk, kj, j -> i in f32 *)
Definition ex_3 : arr := (fresh_arr 0 6 [1; 2; 3])%nat.
Definition ex_2 : arr := (fresh_arr 0 2 [2])%nat.
Example C68_einsum_ex : einsum_ok [ex_3; ex_t; ex_2] [[105; 106; 107]; [107; 106]; [106]]%Z [105]%Z [106; 107]%Z (fun l => Z.to_nat (l - 104)) /\
  Forall2 (holds ex_h) [ex_3; ex_t; ex_2] [read ex_h ex_3; read ex_h ex_t; read ex_h ex_2] /\
  Forall2 (floats f32) [ex_3; ex_t; ex_2] [read ex_h ex_3; read ex_h ex_t; read ex_h ex_2] /\
  exists h' r x, nd_einsum (S754_zero false) (fone f32) (okadd (fadd f32)) (okadd (fmul f32)) (ffmaM f32) ex_h [ex_3; ex_t; ex_2] [[105; 106; 107]; [107; 106]; [106]]%Z [105]%Z = Ok (h', r) /\
    get h' r [0]%nat = Ok x /\ finite x.
Proof.
  split; [|split; [|split]].
  - unfold einsum_ok. split; [repeat constructor; cbn; lia|]. split; [repeat constructor; cbn; lia|]. split; [repeat constructor; cbn; lia|].
    split; [|split; [discriminate|split; [cbn; lia|split; [cbn; lia|split]]]].
    + intros l. split.
      * intros [<-|[<-|[<-|[]]]]; exists [105; 106; 107]%Z; cbn; tauto.
      * intros (s & [<-|[<-|[<-|[]]]] & I); cbn in I |- *; tauto.
    + repeat constructor; cbn; lia.
    + intros l [<-|[<-|[<-|[]]]]; cbn; lia.
  - repeat constructor; apply read_holds; reflexivity.
  - repeat constructor; apply read_floats; reflexivity.
  - eexists _, _, _. split; [vm_compute; reflexivity|]. split; [vm_compute; reflexivity|exact I].
Qed.
(** the underflow term is needed: 2^-100 * 2^-60 is 0 in f32 *)
Example C68_underflow_ex : let x := S754_finite false 8388608 (-123) in let y := S754_finite false 8388608 (-83) in
  in_format f32 x /\ in_format f32 y /\ fmul f32 x y = S754_zero false /\ ~ qv x * qv y == 0.
Proof. repeat split. vm_compute. discriminate. Qed.
(** and integers: a 1 x 3 by 3 x 1 product in the SIMD build, exact up to 2^24 *)
Definition ex_zh : heap spec_float := Eval vm_compute in [Some (map (of_Z f32) [4095; -17; 0; 4096; 5; 99]%Z)].
Example C68_integers_ex : let z := fun idx => nth (nth 1 idx 0%nat) [4095; -17; 0]%Z 0%Z in let w := fun idx => nth (nth 0 idx 0%nat) [4096; 5; 99]%Z 0%Z in
  let a := mkArr 0 0 3 6 [1; 3]%nat [3; 1]%nat (mkFlags false true true true true false) in let b := mkArr 0 3 3 3 [3; 1]%nat [1; 1]%nat (mkFlags false true true true true false) in
  holds_int ex_zh a z /\ holds_int ex_zh b w /\
  (bigsum Z.add 0 (map (fun t => big (z [0%nat; t]) * big (w [t; 0%nat])) (seq 0 3)) < 2 ^ prec f32)%Z.
Proof.
  cbv zeta. split; [|split].
  - split; [reflexivity|]. intros idx I. apply in_indices in I. cbn [a_shape indices flat_map map seq app] in I.
    destruct I as [<-|[<-|[<-|[]]]]; (eexists; split; [reflexivity|]); apply zof_rep; vm_compute; reflexivity.
  - split; [reflexivity|]. intros idx I. apply in_indices in I. cbn [a_shape indices flat_map map seq app] in I.
    destruct I as [<-|[<-|[<-|[]]]]; (eexists; split; [reflexivity|]); apply zof_rep; vm_compute; reflexivity.
  - vm_compute. reflexivity.
Qed.
