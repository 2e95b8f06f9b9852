(** PropsNeonCert.v: certified bounds on the rounding error of tensor programs and gradients when
    the crate is compiled with neon_simd (C88). *)
From Coq Require Import List Arith Lia Lqa Bool ZArith QArith Qcanon Qabs Floats.SpecFloat.
From Verif Require Import Base Spec Layout Views Kernels Access Reduce Einsum SpecGrad Autograd Numeric NumericFacts FloatErr FloatSum FloatDot
  Param Blackbox BlackboxGrad Builds BuildsFacts BuildsGrad BuildsGradFacts BlackboxKern SpecCert FloatCert NeonGrad GradFacts5 PropsGrad PropsGrad2 PropsParam2 SpecFlow FlowFacts PropsFlow PropsBuildsGrad PropsCert.
Import ListNotations.
Close Scope Qc_scope. Close Scope Q_scope. Open Scope nat_scope.
Open Scope res_scope.

(** the program on floats with neon_simd, and the same operations on certified numbers: the lanes
    decide the order of the additions, and so the bounds *)
Definition neon_run (f : fmt) (p : list (instr spec_float)) : res gstate := krun (float_num f) (neon_float_kern f) p g0.
Definition neon_cert (f : fmt) (p : list (instr spec_float)) : res gstate := krun (cert_num f) (neon_kern (lanes f) (cert_num f) (c_fma f)) (certified f p) g0.

Lemma certified_exactly f p : Forall2 (ir means True) (certified f p) (exactly p).
Proof.
  replace (exactly p) with (map (map_instr c_val) (certified f p)); [apply ir_map; reflexivity|].
  unfold exactly, certified. rewrite map_map. apply map_ext. intros i.
  destruct i as [sh l|i b|i|o i j|o i c| | | | | | | | | |i sd| ]; cbn [map_instr]; try reflexivity.
  - now rewrite map_map.
  - destruct sd; cbn [map_seed]; rewrite ?map_map; reflexivity.
Qed.
Lemma lanes_ok f : lanes f = 2 \/ lanes f = 4.
Proof. unfold lanes. destruct (prec f =? 24)%Z; auto. Qed.
(** a vector holds four f32 or two f64 *)
Example lanes_ex : lanes f32 = 4 /\ lanes f64 = 2.
Proof. split; reflexivity. Qed.
Lemma neon_build_ok f : build_ok (nop QN) (neon_build (lanes f)).
Proof. split; cbn [neon_build neon vdsp]; [|discriminate]. intros L [= <-]. apply lanes_ok. Qed.

(** ** C88 *)
Theorem C88_programs : forall f p, std f -> admissible QN (exactly p) (s0 QN) ->
  match lrun p [] with
  | None => neon_run f p = Panic
  | Some ls => exists st sc, neon_run f p = Ok st /\ neon_cert f p = Ok sc /\ Forall2 laid (g_ts st) ls /\
      Forall2 (near1 st sc (srun QN (exactly p) (s0 QN))) (g_ts st) (s_ts (srun QN (exactly p) (s0 QN)))
  end.
Proof.
  intros f p ST A.
  pose proof (krun_rel (stands f) _ _ True (stands_num f ST) _ _ (neon_stands f ST) p (certified f p) (ir_map _ _ (stands_certify f) p) g0 g0 (gsr0 _)) as R1.
  pose proof (krun_rel means _ _ True (means_num f) _ _ (neon_means f (lanes f)) _ _ (certified_exactly f p) g0 g0 (gsr0 _)) as R2.
  fold (neon_run f p) in R1. fold (neon_cert f p) in R1, R2. rewrite (C83_without_blas Qc QN _ _ QN_field (neon_build_ok f) eq_refl _ A) in R2.
  pose proof (C82_programs Qc QN (exactly p) A) as L. unfold exactly in L at 1. rewrite lrun_map in L.
  destruct (lrun p []) as [ls|].
  - destruct L as (sq & E & L). rewrite E in R2. destruct (neon_cert f p) as [sc| |] eqn:EC; try contradiction. destruct (neon_run f p) as [st| |]; try contradiction.
    exists st, sc. split; [reflexivity|]. split; [reflexivity|]. cbn [rres] in R1, R2.
    destruct (C33_programs_partial Qc QN _ QN_field (exactly p) A) as [X|(st' & X & AG)]; rewrite E in X; [discriminate|]. injection X as <-.
    assert (TS : g_ts st = g_ts sq) by (destruct R1 as (_ & _ & _ & ->), R2 as (_ & _ & _ & ->); reflexivity). rewrite TS. split; [exact L|].
    assert (NR : forall a sh v, shows (g_heap sq) a sh v -> near (g_heap st) (g_heap sc) a sh v).
    { intros a sh v [S V]. split; [exact S|]. intros idx IR. pose proof (get_rel _ _ _ a idx (proj1 R1)) as G1. pose proof (get_rel _ _ _ a idx (proj1 R2)) as G2.
      rewrite (V idx IR) in G2. destruct (get (g_heap sc) a idx) as [c| |]; try contradiction. destruct (get (g_heap st) a idx) as [x| |]; try contradiction.
      cbn [rres] in G1, G2. exists x, c. split; [reflexivity|]. split; [reflexivity|]. split; [exact G2|]. intros e Ee. unfold stands in G1. rewrite Ee, G2 in G1. apply G1. }
    unfold agrees in AG. clear L TS. induction AG as [|t s ts ss (H1 & H2 & H3) _ IH]; constructor; [|exact IH].
    split; [exact H1|]. split; [now apply NR|]. rewrite (t_gradient_rel _ _ _ t R1), (t_gradient_rel _ _ _ t R2). destruct (s_leaf s) as [k|]; [|exact H3].
    destruct H3 as (a & G & S). exists a. auto.
  - rewrite L in R2. destruct (neon_cert f p); try contradiction. destruct (neon_run f p); try contradiction. reflexivity.
Qed.
Print Assumptions C88_programs.

(** nothing is rounded where every number fits *)
Theorem C88_exact : forall f p sc, std f -> admissible QN (exactly p) (s0 QN) -> neon_cert f p = Ok sc -> all_exact (g_heap sc) ->
  exists st, neon_run f p = Ok st /\ Forall2 (exact1 st (srun QN (exactly p) (s0 QN))) (g_ts st) (s_ts (srun QN (exactly p) (s0 QN))).
Proof.
  intros f p sc ST A E X. pose proof (C88_programs f p ST A) as H. destruct (lrun p []) as [ls|].
  - destruct H as (st & sc' & F & C & _ & N). rewrite E in C. injection C as <-. exists st. split; [exact F|].
    assert (NE : forall a sh v, near (g_heap st) (g_heap sc) a sh v -> exact_at (g_heap st) a sh v).
    { intros a sh v [S V]. split; [exact S|]. intros idx IR. destruct (V idx IR) as (x & c & G & G' & EV & B). pose proof (all_exact_get _ _ _ _ X G') as Z.
      unfold no_error in Z. destruct (c_err c) as [e|]; [|contradiction]. destruct (B e eq_refl) as (q & Q & D). exists x, q. split; [exact G|]. split; [exact Q|].
      rewrite Z in D. assert (U := Qle_Qabs (q - v idx)%Q). assert (W := Qle_Qabs (- (q - v idx))%Q). rewrite Qabs_opp in W. lra. }
    clear - N NE. revert N. generalize (s_ts (srun QN (exactly p) (s0 QN))) as l. generalize (g_ts st) as l'. induction 1 as [|t s ts ss (H1 & H2 & H3) _ IH]; constructor; [|exact IH].
    split; [exact H1|]. split; [now apply NE|]. destruct (s_leaf s) as [k|]; [|exact H3]. destruct H3 as (a & G & _ & S). exists a. auto.
  - exfalso. assert (R := krun_rel (stands f) _ _ True (stands_num f ST) _ _ (neon_stands f ST) p (certified f p) (ir_map _ _ (stands_certify f) p) g0 g0 (gsr0 _)).
    fold (neon_run f p) in R. fold (neon_cert f p) in R. rewrite H, E in R. exact R.
Qed.
Print Assumptions C88_exact.

(** The two builds.  The feature does not decide whether a program panics, nor the layout of a
    tensor or of a gradient.  An element with bounds in both builds differs by no more than the
    bounds together. *)
Definition apart (h h' : heap spec_float) (hc hc' : heap cert) (a : arr) (sh : list nat) : Prop :=
  a_shape a = sh /\ forall idx, in_range idx sh -> exists x y c d, get h a idx = Ok x /\ get h' a idx = Ok y /\ get hc a idx = Ok c /\ get hc' a idx = Ok d /\
    forall e e', c_err c = Some e -> c_err d = Some e' -> exists q r, qval x = Some q /\ qval y = Some r /\ (Qabs (q - r) <= e + e')%Q.
Definition apart1 (st st' sc sc' : gstate) (t : tensor) (s : stensor (T := Qc)) : Prop :=
  apart (g_heap st) (g_heap st') (g_heap sc) (g_heap sc') (t_arr t) (s_shape s) /\
  match s_leaf s with
  | Some k => exists a, t_gradient st t = Some a /\ t_gradient st' t = Some a /\ apart (g_heap st) (g_heap st') (g_heap sc) (g_heap sc') a (s_shape s)
  | None => t_gradient st t = None /\ t_gradient st' t = None
  end.
Lemma near_apart h h' hc hc' a sh v : near h hc a sh v -> near h' hc' a sh v -> apart h h' hc hc' a sh.
Proof.
  intros [S V] [_ W]. split; [exact S|]. intros idx I. destruct (V idx I) as (x & c & G & C & E & B), (W idx I) as (y & d & G' & C' & E' & B'). exists x, y, c, d.
  do 4 (split; [assumption|]). intros e e' K K'. destruct (B e K) as (q & Q & D), (B' e' K') as (r & Q' & D'). exists q, r. do 2 (split; [assumption|]).
  setoid_replace (q - r)%Q with ((q - v idx) + - (r - v idx))%Q by ring. eapply Qle_trans; [apply Qabs_triangle|]. rewrite Qabs_opp. lra.
Qed.
Theorem C88_between : forall f p, std f -> admissible QN (exactly p) (s0 QN) ->
  (float_run f p = Panic /\ neon_run f p = Panic) \/
  exists st st' sc sc', float_run f p = Ok st /\ neon_run f p = Ok st' /\ cert_run f p = Ok sc /\ neon_cert f p = Ok sc' /\ g_ts st = g_ts st' /\
    Forall2 (apart1 st st' sc sc') (g_ts st) (s_ts (srun QN (exactly p) (s0 QN))).
Proof.
  intros f p ST A. pose proof (C84_programs f p ST A) as H. pose proof (C88_programs f p ST A) as H'. destruct (lrun p []) as [ls|]; [|now left]. right.
  destruct H as (st & sc & F & C & _ & N), H' as (st' & sc' & F' & C' & _ & N'). exists st, st', sc, sc'. do 4 (split; [assumption|]).
  pose proof (krun_rel (stands f) _ _ True (stands_num f ST) _ _ (stands_kern f ST) p (certified f p) (ir_map _ _ (stands_certify f) p) g0 g0 (gsr0 _)) as R1.
  pose proof (krun_rel means _ _ True (means_num f) _ _ (means_kern f) _ _ (certified_exactly f p) g0 g0 (gsr0 _)) as R2.
  pose proof (krun_rel (stands f) _ _ True (stands_num f ST) _ _ (neon_stands f ST) p (certified f p) (ir_map _ _ (stands_certify f) p) g0 g0 (gsr0 _)) as R3.
  pose proof (krun_rel means _ _ True (means_num f) _ _ (neon_means f (lanes f)) _ _ (certified_exactly f p) g0 g0 (gsr0 _)) as R4.
  fold (float_run f p) in R1. fold (cert_run f p) in R1, R2. fold (neon_run f p) in R3. fold (neon_cert f p) in R3, R4.
  rewrite (C83_without_blas Qc QN _ _ QN_field (neon_build_ok f) eq_refl _ A) in R4. rewrite krun_portable in R2.
  rewrite F, C in R1. rewrite F', C' in R3. rewrite C in R2. rewrite C' in R4. destruct (Autograd.run QN (exactly p) g0) as [sq| |]; try contradiction. cbn [rres] in R1, R2, R3, R4.
  assert (TS : g_ts st = g_ts st') by (destruct R1 as (_ & _ & _ & ->), R2 as (_ & _ & _ & ->), R3 as (_ & _ & _ & ->), R4 as (_ & _ & _ & ->); reflexivity).
  assert (TG : forall t, t_gradient st t = t_gradient st' t).
  { intros t. rewrite (t_gradient_rel _ _ _ t R1), (t_gradient_rel _ _ _ t R2), (t_gradient_rel _ _ _ t R3), (t_gradient_rel _ _ _ t R4). reflexivity. }
  split; [exact TS|]. rewrite <- TS in N'. clear - N N' TG. revert N N'. generalize (s_ts (srun QN (exactly p) (s0 QN))) as l. generalize (g_ts st) as l'.
  induction 1 as [|t s ts ss (H1 & H2 & H3) _ IH]; intros N'; constructor; [|apply IH; now inversion N'].
  inversion_clear N' as [|? ? ? ? (K1 & K2 & K3) _]. split; [exact (near_apart _ _ _ _ _ _ _ H2 K2)|]. destruct (s_leaf s) as [k|]; [|now split].
  destruct H3 as (a & G & G2 & S), K3 as (a' & G' & G2' & S').
  rewrite <- TG, G in G'. injection G' as <-. exists a. rewrite <- TG. split; [exact G|]. split; [exact G|]. exact (near_apart _ _ _ _ _ _ _ S S').
Qed.
Print Assumptions C88_between.

(** where nothing is rounded in either build, the feature makes no difference to any value *)
Definition same_at (h h' : heap spec_float) (a : arr) (sh : list nat) : Prop :=
  forall idx, in_range idx sh -> exists x y q r, get h a idx = Ok x /\ get h' a idx = Ok y /\ qval x = Some q /\ qval y = Some r /\ (q == r)%Q.
Theorem C88_same : forall f p sc sc', std f -> admissible QN (exactly p) (s0 QN) ->
  cert_run f p = Ok sc -> all_exact (g_heap sc) -> neon_cert f p = Ok sc' -> all_exact (g_heap sc') ->
  exists st st', float_run f p = Ok st /\ neon_run f p = Ok st' /\ g_ts st = g_ts st' /\
    Forall2 (fun t s => same_at (g_heap st) (g_heap st') (t_arr t) (s_shape s) /\
      forall a, t_gradient st t = Some a -> t_gradient st' t = Some a /\ same_at (g_heap st) (g_heap st') a (s_shape s)) (g_ts st) (s_ts (srun QN (exactly p) (s0 QN))).
Proof.
  intros f p sc sc' ST A C X C' X'. destruct (C88_between f p ST A) as [[F _]|(st & st' & s1 & s2 & F & F' & E & E' & TS & N)].
  { destruct (C85_exact f p sc ST A C X) as (st & F' & _). congruence. }
  rewrite C in E. rewrite C' in E'. injection E as <-. injection E' as <-. exists st, st'. do 3 (split; [assumption|]).
  assert (AP : forall a sh, apart (g_heap st) (g_heap st') (g_heap sc) (g_heap sc') a sh -> same_at (g_heap st) (g_heap st') a sh).
  { intros a sh [_ V] idx I. destruct (V idx I) as (x & y & c & d & G & G' & Gc & Gd & B). pose proof (all_exact_get _ _ _ _ X Gc) as Z. pose proof (all_exact_get _ _ _ _ X' Gd) as Z'.
    unfold no_error in Z, Z'. destruct (c_err c) as [e|]; [|contradiction]. destruct (c_err d) as [e'|]; [|contradiction]. destruct (B e e' eq_refl eq_refl) as (q & r & Q & Q' & D).
    exists x, y, q, r. do 4 (split; [assumption|]). rewrite Z, Z' in D. assert (U := Qle_Qabs (q - r)%Q). assert (W := Qle_Qabs (- (q - r))%Q). rewrite Qabs_opp in W. lra. }
  clear - N AP. induction N as [|t s ts ss [H1 H2] _ IH]; constructor; [|exact IH]. split; [now apply AP|]. intros a G. destruct (s_leaf s) as [k|].
  - destruct H2 as (a' & G1 & G2 & H). rewrite G in G1. injection G1 as <-. split; [exact G2|]. now apply AP.
  - destruct H2 as [H2 _]. congruence.
Qed.
Print Assumptions C88_same.

(** the elements of a leaf's gradient with neon_simd: the float, the true derivative, the bound *)
Definition neon_report (f : fmt) (p : list (instr spec_float)) (j : nat) : res (list (spec_float * Qc * option Q)) :=
  st <- neon_run f p ;; sc <- neon_cert f p ;; t <- vget (g_ts st) j ;;
  match t_gradient st t with
  | Some a => xs <- elems (g_heap st) a ;; cs <- elems (g_heap sc) a ;; Ok (map (fun xc => (fst xc, c_val (snd xc), c_err (snd xc))) (combine xs cs))
  | None => Panic
  end.
(** the program of C84 in f32 with four lanes: every element of the gradient has a bound a
    ten-thousandth of the derivative or less *)
Example C88_ex : match neon_report f32 p84 1 with Ok l => map rough l = repeat true 6 | _ => False end.
Proof. vm_compute. reflexivity. Qed.
(** nothing is rounded in the program of C85, with the feature or without *)
Example C88_same_ex : admissible QN (exactly (p85 3)) (s0 QN) /\
  match cert_run f32 (p85 3), neon_cert f32 (p85 3) with Ok sc, Ok sc' => all_exact (g_heap sc) /\ all_exact (g_heap sc') | _, _ => False end.
Proof.
  split; [apply (fitsb_fits QN (exactly (p85 3)) (s0 QN)); vm_compute; reflexivity|].
  assert (X : match cert_run f32 (p85 3), neon_cert f32 (p85 3) with Ok sc, Ok sc' => all_exactb (g_heap sc) && all_exactb (g_heap sc') | _, _ => false end = true) by (vm_compute; reflexivity).
  revert X. generalize (cert_run f32 (p85 3)) as a, (neon_cert f32 (p85 3)) as b. intros [sc| |] [sc'| |]; try discriminate. intros X. apply andb_prop in X as [X Y]. split; now apply all_exactb_ok.
Qed.
(** x * transpose x for a row (2^24, 1, 1, 1, 1) and a row of ones, in f32: the second element is
    2^24 + 4.  One addition after the other gives 2^24, four lanes give 2^24 + 4; the gradients
    differ too. *)
Definition p88 : list (instr spec_float) :=
  [INew [2; 5] (map c84 [16777216; 1; 1; 1; 1; 1; 1; 1; 1; 1]%Z); ISetGrad 0 true; ITranspose TRef 0 0 1; IMatmul 0 1; IReshape TRef 2 [4]; IDot 3 3; IBackward 4].
Definition values_of (r : res gstate) (j : nat) : res (list Q) := st <- r ;; t <- vget (g_ts st) j ;; l <- elems (g_heap st) (t_arr t) ;; Ok (map (fun x => Qred (qv x)) l).
Definition grads_of (r : res gstate) (j : nat) : res (list spec_float) :=
  st <- r ;; t <- vget (g_ts st) j ;; match t_gradient st t with Some a => elems (g_heap st) a | None => Panic end.
Example C88_differs :
  values_of (float_run f32 p88) 2 = Ok [281474976710656 # 1; 16777216 # 1; 16777216 # 1; 5 # 1]%Q /\
  values_of (neon_run f32 p88) 2 = Ok [281474976710656 # 1; 16777220 # 1; 16777220 # 1; 5 # 1]%Q /\
  grads_of (float_run f32 p88) 0 <> grads_of (neon_run f32 p88) 0.
Proof. split; [vm_compute; reflexivity|]. split; [vm_compute; reflexivity|]. vm_compute. intros [=]. Qed.
