(** PropsCert.v: certified bounds on the rounding error of tensor programs and gradients (C84). *)
From Coq Require Import List Arith Lia Lqa Bool ZArith QArith Qcanon Qabs Floats.SpecFloat.
From Verif Require Import Base Spec Layout Views Kernels Access Reduce Einsum SpecGrad Autograd Numeric NumericFacts FloatErr FloatSum FloatDot
  Param Blackbox BlackboxGrad BuildsGrad BuildsGradFacts BlackboxKern SpecCert FloatCert GradFacts5 PropsGrad PropsGrad2 PropsParam2 SpecFlow FlowFacts PropsFlow PropsBuildsGrad.
Import ListNotations.
Close Scope Qc_scope. Close Scope Q_scope. Open Scope nat_scope.
Open Scope res_scope.

(** the program on exact numbers, and on certified numbers whose bounds start at zero *)
Definition exactly (p : list (instr spec_float)) : list (instr Qc) := map (map_instr (fun x => Q2Qc (qv x))) p.
Definition certified (f : fmt) (p : list (instr spec_float)) : list (instr cert) := map (map_instr (certify f)) p.
Definition cert_run (f : fmt) (p : list (instr spec_float)) : res gstate := krun (cert_num f) (fused_kern (cert_num f) (c_fma f)) (certified f p) g0.
Definition float_run (f : fmt) (p : list (instr spec_float)) : res gstate := krun (float_num f) (float_kern f) p g0.

(** the elements of [a]: floats in [h], certified numbers in [hc], and the true values [v] *)
Definition near (h : heap spec_float) (hc : heap cert) (a : arr) (sh : list nat) (v : list nat -> Qc) : Prop :=
  a_shape a = sh /\ forall idx, in_range idx sh -> exists x c, get h a idx = Ok x /\ get hc a idx = Ok c /\ c_val c = v idx /\
    forall e, c_err c = Some e -> exists q, qval x = Some q /\ (Qabs (q - v idx) <= e)%Q.
Definition near1 (st : gstate) (sc : gstate) (ss : sstate) (t : tensor) (s : stensor (T := Qc)) : Prop :=
  t_rg t = s_rg s /\ near (g_heap st) (g_heap sc) (t_arr t) (s_shape s) (value QN s) /\
  match s_leaf s with
  | Some k => exists a, t_gradient st t = Some a /\ t_gradient sc t = Some a /\ near (g_heap st) (g_heap sc) a (s_shape s) (s_G ss k)
  | None => t_gradient st t = None
  end.

Lemma ir_map {T U} (R : T -> U -> Prop) (phi : T -> U) : (forall x, R x (phi x)) -> forall p, Forall2 (ir R True) p (map (map_instr phi) p).
Proof.
  intros H p. assert (L : forall l, Forall2 R l (map phi l)) by (induction l; cbn [map]; constructor; auto).
  induction p as [|i p IH]; constructor; [|exact IH]. destruct i as [sh l|i b|i|o i j|o i c| | | | | | | | | |i sd| ]; cbn [map_instr]; constructor; auto.
  destruct sd; cbn [map_seed]; constructor; auto.
Qed.
Lemma gsr0 {T U} (R : T -> U -> Prop) : gsr R True g0 g0.
Proof. split; [constructor|]. split; [reflexivity|]. split; constructor. Qed.
Lemma get_rel {T U} (R : T -> U -> Prop) h h' a idx : hr R h h' -> rres R (get h a idx) (get h' a idx).
Proof. apply bb_load. Qed.
Lemma t_gradient_rel {T U} (R : T -> U -> Prop) s s' t : gsr R True s s' -> t_gradient s t = t_gradient s' t.
Proof. intros (H & L & G & E). unfold t_gradient. rewrite L. reflexivity. Qed.

(** ** C84 *)
Theorem C84_programs : forall f p, std f -> admissible QN (exactly p) (s0 QN) ->
  match lrun p [] with
  | None => float_run f p = Panic
  | Some ls => exists st sc, float_run f p = Ok st /\ cert_run f p = Ok sc /\ Forall2 laid (g_ts st) ls /\
      Forall2 (near1 st sc (srun QN (exactly p) (s0 QN))) (g_ts st) (s_ts (srun QN (exactly p) (s0 QN)))
  end.
Proof.
  intros f p ST A.
  pose proof (krun_rel (stands f) _ _ True (stands_num f ST) _ _ (stands_kern f ST) p (certified f p) (ir_map _ _ (stands_certify f) p) g0 g0 (gsr0 _)) as R1.
  assert (P2 : Forall2 (ir means True) (certified f p) (exactly p)).
  { replace (exactly p) with (map (map_instr c_val) (certified f p)); [apply ir_map; reflexivity|].
    unfold exactly, certified. rewrite map_map. apply map_ext. intros i.
    destruct i as [sh l|i b|i|o i j|o i c| | | | | | | | | |i sd| ]; cbn [map_instr]; try reflexivity.
    - now rewrite map_map.
    - destruct sd; cbn [map_seed]; rewrite ?map_map; reflexivity. }
  pose proof (krun_rel means _ _ True (means_num f) _ _ (means_kern f) _ _ P2 g0 g0 (gsr0 _)) as R2.
  fold (float_run f p) in R1. fold (cert_run f p) in R1, R2. rewrite krun_portable in R2.
  pose proof (C82_programs Qc QN (exactly p) A) as L. unfold exactly in L at 1. rewrite lrun_map in L.
  destruct (lrun p []) as [ls|].
  - destruct L as (sq & E & L). rewrite E in R2. destruct (cert_run f p) as [sc| |] eqn:EC; try contradiction. destruct (float_run f p) as [st| |]; try contradiction.
    exists st, sc. split; [reflexivity|]. split; [reflexivity|]. cbn [rres] in R1, R2.
    destruct (C33_programs_partial Qc QN _ QN_field (exactly p) A) as [X|(st' & X & AG)]; rewrite E in X; [discriminate|]. injection X as <-.
    assert (TS : g_ts st = g_ts sq) by (destruct R1 as (_ & _ & _ & ->), R2 as (_ & _ & _ & ->); reflexivity). rewrite TS. split; [exact L|].
    assert (NR : forall a sh v, shows (g_heap sq) a sh v -> near (g_heap st) (g_heap sc) a sh v).
    { intros a sh v [S V]. split; [exact S|]. intros idx IR. pose proof (get_rel _ _ _ a idx (proj1 R1)) as G1. pose proof (get_rel _ _ _ a idx (proj1 R2)) as G2.
      rewrite (V idx IR) in G2. destruct (get (g_heap sc) a idx) as [c| |]; try contradiction. destruct (get (g_heap st) a idx) as [x| |]; try contradiction.
      cbn [rres] in G1, G2. exists x, c. split; [reflexivity|]. split; [reflexivity|]. split; [exact G2|]. intros e Ee. unfold stands in G1. rewrite Ee, G2 in G1. apply G1. }
    unfold agrees in AG. clear L TS. induction AG as [|t s ts ss (H1 & H2 & H3) _ IH]; constructor; [|exact IH].
    split; [exact H1|]. split; [now apply NR|]. rewrite (t_gradient_rel _ _ _ t R1), (t_gradient_rel _ _ _ t R2). destruct (s_leaf s) as [k|]; [|exact H3].
    destruct H3 as (a & G & S). exists a. auto.
  - rewrite L in R2. destruct (cert_run f p); try contradiction. destruct (float_run f p); try contradiction. reflexivity.
Qed.
Print Assumptions C84_programs.

(** the elements of a leaf's gradient: the float, the true derivative, the bound *)
Definition grad_report (f : fmt) (p : list (instr spec_float)) (j : nat) : res (list (spec_float * Qc * option Q)) :=
  st <- float_run f p ;; sc <- cert_run f p ;; t <- vget (g_ts st) j ;;
  match t_gradient st t with
  | Some a => xs <- elems (g_heap st) a ;; cs <- elems (g_heap sc) a ;; Ok (map (fun xc => (fst xc, c_val (snd xc), c_err (snd xc))) (combine xs cs))
  | None => Panic
  end.
Definition c84 (z : Z) : spec_float := of_Z f32 z.
Definition p84 : list (instr spec_float) :=
  [INew [2; 3] (map c84 [1; 2; 3; 4; 5; 6]%Z); INew [3; 2] (map c84 [1; -1; 2; 0; 1; 3]%Z); ISetGrad 0 true; ISetGrad 1 true;
   IMatmul 0 1; INew [2] (map c84 [10; 20]%Z); ISetGrad 3 true; IBin BAdd 2 3; ITranspose TRef 4 0 1; IMatmul 5 4; IBin BDiv 6 4;
   IReshape TRef 7 [2; 1; 2]; IReshape TRef 8 [4]; IDot 9 9; IBackward 10].
(** there is a bound, a ten-thousandth of the derivative or less, and the float is not the derivative *)
Definition rough (r : spec_float * Qc * option Q) : bool :=
  match snd r with Some e => (Qle_bool (e * 10000) (Qabs (snd (fst r))) && negb (Qeq_bool (qv (fst (fst r))) (snd (fst r))))%Q | None => false end.
Example C84_ex : admissible QN (exactly p84) (s0 QN) /\ match grad_report f32 p84 1 with Ok l => map rough l = repeat true 6 | _ => False end.
Proof. split; [apply (fitsb_fits QN (exactly p84) (s0 QN)); vm_compute; reflexivity|]. vm_compute. reflexivity. Qed.

(** x * x * x in f32.  At 2^64 the derivative 3 * 2^128 is beyond f32: the float is infinite and
    there is no bound.  At 2^40 the gradient is exact. *)
Definition p84o (x : spec_float) : list (instr spec_float) := [INew [1] [x]; ISetGrad 0 true; IBin BMul 0 0; IBin BMul 1 0; IBackward 2].
Example C84_overflow : match grad_report f32 (p84o (c84 (2 ^ 64))) 0, grad_report f32 (p84o (c84 (2 ^ 40))) 0 with
  | Ok [(x, _, e)], Ok [(y, d, Some e')] => x = S754_infinity false /\ e = None /\ qv y == d /\ e' <= d * (1 # 1000000)
  | _, _ => False
  end%Q.
Proof. vm_compute. repeat split; congruence. Qed.

(** ** C85: nothing is rounded where every number fits *)
Definition exact_at (h : heap spec_float) (a : arr) (sh : list nat) (v : list nat -> Qc) : Prop :=
  a_shape a = sh /\ forall idx, in_range idx sh -> exists x q, get h a idx = Ok x /\ qval x = Some q /\ (q == v idx)%Q.
Definition exact1 (st : gstate) (ss : sstate) (t : tensor) (s : stensor (T := Qc)) : Prop :=
  t_rg t = s_rg s /\ exact_at (g_heap st) (t_arr t) (s_shape s) (value QN s) /\
  match s_leaf s with
  | Some k => exists a, t_gradient st t = Some a /\ exact_at (g_heap st) a (s_shape s) (s_G ss k)
  | None => t_gradient st t = None
  end.
(** every cell of memory has the bound zero *)
Definition no_error (c : cert) : Prop := match c_err c with Some e => (e == 0)%Q | None => False end.
Definition all_exact (h : heap cert) : Prop := Forall (fun b => match b with Some l => Forall no_error l | None => True end) h.
Lemma all_exact_get h a idx c : all_exact h -> get h a idx = Ok c -> no_error c.
Proof.
  unfold all_exact, get, load. rewrite Forall_forall. intros A E. destruct (nth_error h (a_blk a)) as [[l|]|] eqn:B; try discriminate.
  destruct (nth_error l _) as [x|] eqn:X; [|discriminate]. injection E as <-. apply nth_error_In in B, X. specialize (A _ B). cbn beta iota in A. rewrite Forall_forall in A. now apply A.
Qed.
Theorem C85_exact : forall f p sc, std f -> admissible QN (exactly p) (s0 QN) -> cert_run f p = Ok sc -> all_exact (g_heap sc) ->
  exists st, float_run f p = Ok st /\ Forall2 (exact1 st (srun QN (exactly p) (s0 QN))) (g_ts st) (s_ts (srun QN (exactly p) (s0 QN))).
Proof.
  intros f p sc ST A E X. pose proof (C84_programs f p ST A) as H. destruct (lrun p []) as [ls|].
  - destruct H as (st & sc' & F & C & _ & N). rewrite E in C. injection C as <-. exists st. split; [exact F|].
    assert (NE : forall a sh v, near (g_heap st) (g_heap sc) a sh v -> exact_at (g_heap st) a sh v).
    { intros a sh v [S V]. split; [exact S|]. intros idx IR. destruct (V idx IR) as (x & c & G & G' & EV & B). pose proof (all_exact_get _ _ _ _ X G') as Z.
      unfold no_error in Z. destruct (c_err c) as [e|]; [|contradiction]. destruct (B e eq_refl) as (q & Q & D). exists x, q. split; [exact G|]. split; [exact Q|].
      rewrite Z in D. assert (U := Qle_Qabs (q - v idx)%Q). assert (W := Qle_Qabs (- (q - v idx))%Q). rewrite Qabs_opp in W. lra. }
    clear - N NE. revert N. generalize (s_ts (srun QN (exactly p) (s0 QN))) as l. generalize (g_ts st) as l'. induction 1 as [|t s ts ss (H1 & H2 & H3) _ IH]; constructor; [|exact IH].
    split; [exact H1|]. split; [now apply NE|]. destruct (s_leaf s) as [k|]; [|exact H3]. destruct H3 as (a & G & _ & S). exists a. auto.
  - exfalso. assert (R := krun_rel (stands f) _ _ True (stands_num f ST) _ _ (stands_kern f ST) p (certified f p) (ir_map _ _ (stands_certify f) p) g0 g0 (gsr0 _)).
    fold (float_run f p) in R. fold (cert_run f p) in R. rewrite H, E in R. exact R.
Qed.
Print Assumptions C85_exact.

Definition all_exactb (h : heap cert) : bool :=
  forallb (fun b => match b with Some l => forallb (fun c => match c_err c with Some e => Qeq_bool e 0 | None => false end) l | None => true end) h.
Lemma all_exactb_ok h : all_exactb h = true -> all_exact h.
Proof.
  unfold all_exactb, all_exact. rewrite forallb_forall, Forall_forall. intros H b J. specialize (H b J). destruct b as [l|]; [|exact I]. rewrite forallb_forall in H.
  apply Forall_forall. intros c K. specialize (H c K). unfold no_error. destruct (c_err c); [|discriminate]. now apply Qeq_bool_iff.
Qed.
(** A layer with a broadcast bias, a quotient by 8 and a scalar product: no rounding, although the
    gradient is not made of integers.  With the factor 1001 in place of 3 f32 rounds. *)
Definition p85 (z : Z) : list (instr spec_float) :=
  [INew [2; 3] (map c84 [1; 2; 3; 4; 5; 6]%Z); INew [3; 2] (map c84 [1; -1; 2; 0; 1; 3]%Z); ISetGrad 0 true; ISetGrad 1 true;
   IMatmul 0 1; INew [2] (map c84 [10; 20]%Z); ISetGrad 3 true; IBin BAdd 2 3; IScal BMul 4 (c84 z); IScal BDiv 5 (c84 8); IReshape TRef 6 [4]; IDot 7 7; IBackward 8].
Example C85_ex : admissible QN (exactly (p85 3)) (s0 QN) /\
  match cert_run f32 (p85 3) with Ok sc => all_exact (g_heap sc) | _ => False end /\
  match grad_report f32 (p85 3) 1 with Ok l => map (fun r => this (snd (fst r))) l | _ => [] end = [621 # 16; 369 # 8; 837 # 16; 1017 # 16; 1053 # 16; 81]%Q /\
  match cert_run f32 (p85 1001) with Ok sc => all_exactb (g_heap sc) | _ => false end = false.
Proof.
  split; [apply (fitsb_fits QN (exactly (p85 3)) (s0 QN)); vm_compute; reflexivity|].
  split; [assert (X : match cert_run f32 (p85 3) with Ok sc => all_exactb (g_heap sc) | _ => false end = true) by (vm_compute; reflexivity);
          destruct (cert_run f32 (p85 3)); try discriminate; now apply all_exactb_ok|].
  vm_compute. split; reflexivity.
Qed.
