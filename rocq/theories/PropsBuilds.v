(** PropsBuilds.v: every combination of the features runs programs like the reference machine (C75). *)
From Coq Require Import List Arith Lia Bool ZArith Permutation.
From Verif Require Import Base Nested PropsNew Spec Layout SpecFacts LayoutFacts Views ViewsFacts ViewsFacts2 ViewsFacts3 Kernels Access HeapFacts KernelFacts OpFacts
  AccessFacts Reduce ReduceFacts Chain ChainFacts Einsum EinsumFacts8 Simd SimdOps Vendor Vdsp GradFacts PropsViews PropsOps PropsReduce PropsEinsum PropsEinsumView PropsSimd PropsVendor PropsVdsp PropsAssign Prog PropsProg SpecRef
  RefFacts RefFacts2 PropsRef Builds BuildsFacts.
Import ListNotations.
Open Scope res_scope.

Section Main.
  Context {T : Type}.
  Variable zero one : T.
  Variable op : arith -> T -> T -> T.
  Variable neg : T -> T.
  Variable eqb : T -> T -> bool.
  Local Notation add := (op AAdd).
  Local Notation mul := (op AMul).
  Local Notation exec := (exec zero one add mul eqb).
  Local Notation ref := (ref zero one add mul eqb).
  Local Notation ref_all := (ref_all zero one add mul eqb).
  Local Notation supported := (supported zero one add mul).
  Local Notation erase := (erase zero one op neg).
  Local Notation run := (run zero one op neg eqb).
  Local Notation run_all := (run_all zero one op neg eqb).
  Local Notation state := (@state T).
  Local Notation bcmd := (@bcmd T).

  (** What a build asks beyond C63.  Sums and products taken in another order need an element
      type where the order does not matter.  With BLAS the extents and strides are below 2^31,
      and matrices and vectors have the leading dimensions and increments it accepts (C52). *)
  Definition fine (B : @build T) (c : bcmd) (s : state) : Prop :=
    match c with
    | BPlain c => plain c = true
    | BSum _ => vdsp B <> None \/ neon B <> None -> is_csr zero one add mul
    | BProduct _ => neon B <> None -> is_csr zero one add mul
    | BDot k1 k2 => on s k1 (fun a _ => sized B a) /\ on s k2 (fun b _ => sized B b)
    | BMatmul k1 k2 => on s k1 (fun a _ => sized B a) /\ on s k2 (fun b _ => sized B b) /\
        (blas B <> None -> on s k1 (fun a _ => length (a_shape a) = 1 \/ leading a /\ on s k2 (fun b _ => leading b)))
    | BBmm k1 k2 => on s k1 (fun a _ => sized B a) /\ on s k2 (fun b _ => sized B b) /\
        (blas B <> None -> on s k1 (fun a _ => leading a /\ on s k2 (fun b _ => leading b /\
           match a_shape a, a_shape b with [q; _; k], [q'; k'; _] => q = q' -> k = k' | _, _ => True end)))
    | BEinsum ks _ _ => forall k, In k ks -> on s k (fun a _ => sized B a)
    | _ => True
    end.

  (** equal results, up to the representation of memory *)
  Definition same (p q : res state) : Prop :=
    match p, q with
    | Ok s1, Ok s2 => abs s1 = abs s2 /\ s_env s1 = s_env s2 /\ sound s1
    | Panic, Panic => True
    | _, _ => False
    end.

  Lemma same_refl s p : good_out s p -> same p p.
  Proof. intros [N G]. destruct p as [s'| |]; cbn [same]; auto. Qed.
  Lemma same_alike s p q : sound s -> alike (s_heap s) p q -> good_out s (made s q) -> same (made s p) (made s q).
  Proof.
    intros S [->|(h1 & h2 & r & sh & val & -> & -> & F1 & F2)] G; [eapply same_refl; eauto|]. cbn [made bind same fst snd s_env].
    pose proof (fresh_elems _ _ _ _ _ F1) as M. pose proof F1 as (_ & _ & _ & V & _). destruct (valid_elems _ _ V) as (vs & EV). rewrite EV in M. symmetry in M.
    rewrite (abs_made s h1 r sh val vs F1 M), (abs_made s h2 r sh val vs F2 M). split; [reflexivity|]. split; [reflexivity|]. eapply sound_made; eauto.
  Qed.
  Lemma same_eq s p q : p = q -> good_out s q -> same p q.
  Proof. intros -> G. eapply same_refl; eauto. Qed.

  Lemma run_same B c s : build_ok op B -> sound s -> supported (erase c) s -> fine B c s -> same (run B c s) (exec (erase c) s).
  Proof.
    intros BOK S SU FI. pose proof SU as (A & RG & X). pose proof (exec_good zero one add mul eqb (erase c) s RG S A) as G.
    assert (CV : forall k a bc, nth_error (s_env s) k = Some (a, bc) -> valid (s_heap s) a).
    { intros k a bc E. destruct (sound_arr _ _ _ _ S E) as (n & LV & C). eapply chain_valid; eauto. }
    destruct c; cbn [Builds.run Builds.erase Prog.exec] in *; cbn [allowed] in A; cbn [ring_ok] in RG; cbn [fine] in FI; cbn in X.
    - eapply same_refl; eauto.
    - (* binary *) destruct A as (A1 & A2 & _). unfold nth_arr in *. destruct (nth_error (s_env s) k1) as [[a bc]|] eqn:E1; cbn [orPanic bind fst] in *; [|exact I].
      destruct (nth_error (s_env s) k2) as [[b bc2]|] eqn:E2; cbn [orPanic bind fst] in *; [|exact I].
      rewrite (bk_binary_eq zero op B BOK); eauto; [eapply same_refl; eauto|apply (A1 a bc E1)|apply (A2 b bc2 E2)].
    - (* scalar *) destruct A as (A1 & _). unfold nth_arr in *. destruct (nth_error (s_env s) k) as [[a bc]|] eqn:E1; cbn [orPanic bind fst] in *; [|exact I].
      rewrite (bk_scalar_op_eq zero op B BOK); eauto; [eapply same_refl; eauto|apply (A1 a bc E1)].
    - (* neg *) destruct A as (A1 & _). unfold nth_arr in *. destruct (nth_error (s_env s) k) as [[a bc]|] eqn:E1; cbn [orPanic bind fst] in *; [|exact I].
      rewrite (bk_neg_eq zero op neg B BOK); eauto; [eapply same_refl; eauto|apply (A1 a bc E1)].
    - (* assign *) destruct A as (A1 & _). unfold nth_arr in *. destruct (nth_error (s_env s) k1) as [[a bc]|] eqn:E1; cbn [orPanic bind fst] in *; [|exact I].
      destruct (nth_error (s_env s) k2) as [[b bc2]|] eqn:E2; cbn [orPanic bind fst] in *; [|exact I].
      destruct (sound_arr _ _ _ _ S E1) as (n & LV & C). pose proof (chain_inv _ _ _ _ C) as IV. destruct bc.
      { rewrite bk_assign_panic by (left; rewrite (i_wr _ _ _ _ IV); reflexivity). destruct (C15_assign_readonly_partial T (opM op o) (s_heap s) _ n a C) as [-> _]. exact I. }
      destruct (X a false E1 eq_refl) as [FC NF]. specialize (NF b bc2 E2). destruct (chain_tight _ _ _ C) as (_ & NB & FL & _).
      destruct (broadcastableb (a_shape b) (a_shape a)) eqn:BC.
      + apply broadcastableb_spec in BC. rewrite (bk_assign_eq op B BOK); eauto; [eapply same_refl; eauto|]. apply (A1 a false E1).
      + assert (NBC : ~ broadcastable (a_shape b) (a_shape a)) by (rewrite <- broadcastableb_spec; congruence).
        rewrite bk_assign_panic by auto. rewrite C14_assign_shape_panics by exact NBC. exact I.
    - (* assign scalar *) destruct A as (A1 & _). unfold nth_arr in *. destruct (nth_error (s_env s) k) as [[a bc]|] eqn:E1; cbn [orPanic bind fst] in *; [|exact I].
      destruct (sound_arr _ _ _ _ S E1) as (n & LV & C). pose proof (chain_inv _ _ _ _ C) as IV. destruct bc.
      { rewrite bk_assign_scalar_panic by (rewrite (i_wr _ _ _ _ IV); reflexivity). destruct (C15_assign_readonly_partial T (opM op o) (s_heap s) _ n a C) as [_ ->]. exact I. }
      destruct (chain_tight _ _ _ C) as (_ & NB & FL & _). rewrite (bk_assign_scalar_eq op B BOK); eauto; [eapply same_refl; eauto|]. apply (A1 a false E1).
    - (* sum *) destruct A as (A1 & _). unfold nth_arr in *. destruct (nth_error (s_env s) k) as [[a bc]|] eqn:E1; cbn [orPanic bind fst] in *; [|exact I].
      apply same_alike; auto. apply (bk_sum_alike zero one op B BOK); [|exact FI]. destruct (A1 a bc E1) as [[D P] U]. destruct (sound_arr _ _ _ _ S E1) as (n & LV & C).
      split; [exact D|]. split; [exact P|]. exists n. split; [exact LV|]. destruct U as [->|U]; [now left|]. destruct bc; auto.
    - (* product *) destruct A as (A1 & _). unfold nth_arr in *. destruct (nth_error (s_env s) k) as [[a bc]|] eqn:E1; cbn [orPanic bind fst] in *; [|exact I].
      apply same_alike; auto. apply (bk_product_alike zero one op B BOK); [|exact FI]. destruct (A1 a bc E1) as [[D P] U]. destruct (sound_arr _ _ _ _ S E1) as (n & LV & C).
      split; [exact D|]. split; [exact P|]. exists n. split; [exact LV|]. destruct U as [->|U]; [now left|]. destruct bc; auto.
    - (* dot *) destruct A as (A1 & A2), FI as (F1 & F2). unfold nth_arr in *. destruct (nth_error (s_env s) k1) as [[a bc]|] eqn:E1; cbn [orPanic bind fst] in *; [|exact I].
      destruct (nth_error (s_env s) k2) as [[b bc2]|] eqn:E2; cbn [orPanic bind fst] in *; [|exact I].
      rewrite (bk_nd_dot_eq zero one op B BOK RG); [eapply same_refl; eauto|apply (A1 a bc E1)|apply (F1 a bc E1)|apply (F2 b bc2 E2)].
    - (* matmul *) destruct A as (A1 & A2), FI as (F1 & F2 & F3). unfold nth_arr in *. destruct (nth_error (s_env s) k1) as [[a bc]|] eqn:E1; cbn [orPanic bind fst] in *; [|exact I].
      destruct (nth_error (s_env s) k2) as [[b bc2]|] eqn:E2; cbn [orPanic bind fst] in *; [|exact I].
      apply same_alike; auto. apply (bk_matmul_alike zero one op B BOK RG); [eauto|eauto|apply (A1 a bc E1)|apply (A2 b bc2 E2)|apply (F1 a bc E1)|apply (F2 b bc2 E2)|].
      intros Q. destruct (F3 Q a bc E1) as [L|[L1 L2]]; [now left|right]. split; [exact L1|exact (L2 b bc2 E2)].
    - (* bmm *) destruct A as (A1 & A2), FI as (F1 & F2 & F3). unfold nth_arr in *. destruct (nth_error (s_env s) k1) as [[a bc]|] eqn:E1; cbn [orPanic bind fst] in *; [|exact I].
      destruct (nth_error (s_env s) k2) as [[b bc2]|] eqn:E2; cbn [orPanic bind fst] in *; [|exact I].
      apply same_alike; auto. apply (bk_bmm_alike zero one op B BOK RG); [eauto|eauto|apply (A1 a bc E1)|apply (A2 b bc2 E2)|apply (F1 a bc E1)|apply (F2 b bc2 E2)|].
      intros Q. destruct (F3 Q a bc E1) as [L1 L2]. split; [exact L1|exact (L2 b bc2 E2)].
    - (* einsum *) destruct A as (U & L15 & LS & LO & sm & dm & ND & LET & NE & L32 & F). destruct (mapM (nth_arr s) ks) as [l| |] eqn:M; cbn [bind] in *; [|exact I|now destruct G].
      assert (NT : Forall2 (fun k p => nth_error (s_env s) k = Some p) ks l).
      { clear -M. revert l M. induction ks as [|k ks IH]; intros l M; cbn [mapM] in M; [injection M as <-; constructor|].
        apply bind_Ok_inv in M as (p & E & M). apply bind_Ok_inv in M as (l' & E' & [= <-]). constructor; [|now apply IH].
        unfold nth_arr in E. destruct (nth_error (s_env s) k); congruence. }
      assert (AL : forall p, In p l -> valid (s_heap s) (fst p) /\ usable (fst p) /\ sized B (fst p)).
      { intros p J. assert (exists k, In k ks /\ nth_error (s_env s) k = Some p) as (k & K1 & K2).
        { clear -NT J. induction NT; [easy|]. destruct J as [->|J]; [exists x; split; [now left|auto]|]. destruct (IHNT J) as (k & ? & ?). exists k. split; [now right|auto]. }
        destruct p as [a bc]. split; [eapply CV; eauto|]. split; [exact (U k K1 a bc K2)|exact (FI k K1 a bc K2)]. }
      rewrite (bk_einsum_eq zero one op B BOK RG); [eapply same_refl; eauto| |].
      + apply Forall_map, Forall_forall. intros p J. destruct (AL p J) as (V & [_ P] & _). eapply valid_blk; eauto.
      + apply (einsum_small B (map fst l) subs out sm dm); auto.
        * rewrite map_length. apply Forall2_length in NT. lia.
        * clear -F NT AL. revert l NT AL. induction F as [|sub k subs ks H F IH]; intros l NT AL; inversion NT; subst; cbn [map]; constructor.
          -- destruct y as [a bc]. cbn [fst]. destruct (AL (a, bc) (or_introl eq_refl)) as ([L _] & [D _] & _). split; [eapply H; eauto|]. auto.
          -- apply IH; [assumption|]. intros p J. apply AL. now right.
        * apply Forall_map, Forall_forall. intros p J. now apply AL.
  Qed.

  (** at every point the program reaches in this build *)
  Fixpoint all_fine (B : @build T) (cs : list bcmd) (s : state) : Prop :=
    match cs with [] => True | c :: cs' => supported (erase c) s /\ fine B c s /\ forall s', run B c s = Ok s' -> all_fine B cs' s' end.
  (** no command is rejected for a reason of layout *)
  Fixpoint all_accepted (B : @build T) (cs : list bcmd) (s : state) : Prop :=
    match cs with [] => True | c :: cs' => exact (erase c) s /\ forall s', run B c s = Ok s' -> all_accepted B cs' s' end.

  Lemma run_ref B c s : build_ok op B -> sound s -> supported (erase c) s -> fine B c s ->
    sim (exact (erase c) s) (run B c s) (ref (erase c) (abs s)) /\ forall s', run B c s = Ok s' -> sound s'.
  Proof.
    intros BOK S SU FI. pose proof (run_same B c s BOK S SU FI) as R. pose proof (exec_ref zero one add mul eqb (erase c) s S SU) as E.
    destruct (run B c s) as [s1| |], (exec (erase c) s) as [s2| |]; cbn [same sim] in *; try contradiction.
    - destruct R as (-> & _ & SO). split; [exact E|]. now intros s' [= <-].
    - split; [exact E|discriminate].
  Qed.
  Lemma run_all_ref B cs : build_ok op B -> forall s, sound s -> all_fine B cs s ->
    sim (all_accepted B cs s) (run_all B cs s) (ref_all (map erase cs) (abs s)) /\ forall s', run_all B cs s = Ok s' -> sound s'.
  Proof.
    intros BOK. induction cs as [|c cs IH]; intros s S A; cbn [Builds.run_all SpecRef.ref_all map]; [split; [reflexivity|now intros s' [= <-]]|].
    destruct A as (A1 & A2 & A3). destruct (run_ref B c s BOK S A1 A2) as [R G].
    destruct (run B c s) as [s1| |] eqn:E; cbn [sim bind] in R |- *; [|split; [|discriminate]|contradiction].
    - rewrite R. cbn [bind]. destruct (IH s1 (G s1 eq_refl) (A3 s1 eq_refl)) as [H1 H2]. split; [|exact H2].
      destruct (run_all B cs s1); cbn [sim] in *; auto. intros [_ X]. apply H1. cbn [all_accepted] in X. now apply X.
    - intros [X _]. rewrite R by exact X. reflexivity.
  Qed.
End Main.

(** one operation, from any state: the build and the portable code both panic, or give the same arrays *)
Theorem C75_operation : forall T (zero one : T) op neg eqb B c s, build_ok op B -> sound s ->
  supported zero one (op AAdd) (op AMul) (erase zero one op neg c) s -> fine zero one op B c s ->
  match run zero one op neg eqb B c s, exec zero one (op AAdd) (op AMul) eqb (erase zero one op neg c) s with
  | Ok s1, Ok s2 => s_env s1 = s_env s2 /\ s_out s1 = s_out s2 /\ sound s1 /\
      forall k a bc, nth_error (s_env s1) k = Some (a, bc) -> exists vs, elems (s_heap s1) a = Ok vs /\ elems (s_heap s2) a = Ok vs
  | Panic, Panic => True
  | _, _ => False
  end.
Proof.
  intros T zero one op neg eqb B c s BOK S SU FI. pose proof (run_same zero one op neg eqb B c s BOK S SU FI) as R.
  destruct (exec_good zero one (op AAdd) (op AMul) eqb (erase zero one op neg c) s (proj1 (proj2 SU)) S (proj1 SU)) as [_ G].
  destruct (run _ _ _ _ _ B c s) as [s1| |], (exec _ _ _ _ _ _ s) as [s2| |]; cbn [same] in R; auto. destruct R as (E & EN & SO). split; [exact EN|].
  split; [exact (f_equal r_out E)|]. split; [exact SO|]. intros k a bc N. specialize (G s2 eq_refl).
  destruct (sound_arr _ _ _ _ SO N) as (n & LV & C). destruct (data_abs s1 a bc (chain_valid _ _ _ _ _ LV C)) as (vs & E1 & D1).
  rewrite EN in N. destruct (sound_arr _ _ _ _ G N) as (n2 & LV2 & C2). destruct (data_abs s2 a bc (chain_valid _ _ _ _ _ LV2 C2)) as (vs2 & E2 & D2).
  exists vs. split; [exact E1|]. rewrite E in D1. congruence.
Qed.
Print Assumptions C75_operation.

(** whole programs against the reference machine of C63 *)
Theorem C75_programs : forall T (zero one : T) op neg eqb B cs s', build_ok op B -> all_fine zero one op neg eqb B cs (mkState [] [] []) ->
  run_all zero one op neg eqb B cs (mkState [] [] []) = Ok s' ->
  exists r, ref_all zero one (op AAdd) (op AMul) eqb (map (erase zero one op neg) cs) (mkRef [] [] []) = Ok r /\ r_out r = s_out s' /\ length (r_env r) = length (s_env s') /\
    forall k a bc t, nth_error (s_env s') k = Some (a, bc) -> nth_error (r_env r) k = Some t ->
      t_shape t = a_shape a /\ exists vs, data r t = Ok vs /\ elems (s_heap s') a = Ok vs.
Proof.
  intros T zero one op neg eqb B cs s' BOK A E. destruct (run_all_ref zero one op neg eqb B cs BOK _ (sound_start T) A) as [R S]. rewrite E in R. cbn [sim] in R.
  exists (abs s'). split; [exact R|]. split; [reflexivity|]. split; [apply map_length|]. intros k a bc t N1 N2. cbn [abs r_env] in N2. rewrite nth_error_map, N1 in N2. injection N2 as <-.
  split; [reflexivity|]. destruct (sound_arr _ _ _ _ (S _ E) N1) as (n & LV & C). destruct (data_abs s' a bc (chain_valid _ _ _ _ _ LV C)) as (vs & E1 & E2). eauto.
Qed.
Print Assumptions C75_programs.

(** no such program leaves memory; it panics when and only when the machine refuses it *)
Theorem C75_rejects : forall T (zero one : T) op neg eqb B cs, build_ok op B -> all_fine zero one op neg eqb B cs (mkState [] [] []) ->
  run_all zero one op neg eqb B cs (mkState [] [] []) <> Oob /\
  (all_accepted zero one op neg eqb B cs (mkState [] [] []) ->
    (run_all zero one op neg eqb B cs (mkState [] [] []) = Panic <-> ref_all zero one (op AAdd) (op AMul) eqb (map (erase zero one op neg) cs) (mkRef [] [] []) = Panic)).
Proof.
  intros T zero one op neg eqb B cs BOK A. destruct (run_all_ref zero one op neg eqb B cs BOK _ (sound_start T) A) as [R _]. change (abs (mkState [] [] [])) with (@mkRef T [] [] []) in R.
  destruct (run_all _ _ _ _ _ B cs _) as [s'| |]; cbn [sim] in R; [|split; [discriminate|tauto]|contradiction]. split; [discriminate|]. intros X. split; [discriminate|]. intros E. rewrite R in E. discriminate.
Qed.
Print Assumptions C75_rejects.

(** two builds, from states with the same cells: the same cells and the same output *)
Theorem C75_builds_agree : forall T (zero one : T) op neg eqb B1 B2 cs s1 s2 s1' s2', build_ok op B1 -> build_ok op B2 -> sound s1 -> sound s2 -> abs s1 = abs s2 ->
  all_fine zero one op neg eqb B1 cs s1 -> all_fine zero one op neg eqb B2 cs s2 ->
  run_all zero one op neg eqb B1 cs s1 = Ok s1' -> run_all zero one op neg eqb B2 cs s2 = Ok s2' -> abs s1' = abs s2' /\ s_out s1' = s_out s2'.
Proof.
  intros T zero one op neg eqb B1 B2 cs s1 s2 s1' s2' K1 K2 S1 S2 EQ A1 A2 E1 E2.
  destruct (run_all_ref zero one op neg eqb B1 cs K1 _ S1 A1) as [R1 _]. destruct (run_all_ref zero one op neg eqb B2 cs K2 _ S2 A2) as [R2 _].
  rewrite E1 in R1. rewrite E2 in R2. cbn [sim] in R1, R2. assert (H : abs s1' = abs s2') by congruence. split; [exact H|]. change (r_out (abs s1') = r_out (abs s2')). now rewrite H.
Qed.
Print Assumptions C75_builds_agree.

(** the build with every feature, the one with BLAS alone, and the portable one *)
Definition nop (o : arith) : nat -> nat -> nat := match o with AAdd => Nat.add | ASub => Nat.sub | AMul => Nat.mul | ADiv => Nat.div end.
Definition everything : @build nat := mkBuild (Some 2) (Some (fun h => Ok h)) (Some (fold_right Nat.add 0)) true.
Definition only_blas : @build nat := mkBuild None (Some (fun h => Ok h)) None false.
Lemma fold_right_once : sums_once Nat.add (fold_right Nat.add 0).
Proof.
  intros xs NE. destruct (SimdRed.tree_fold Nat.add (tl xs) (SimdRed.Leaf (hd 0 xs))) as (t & E & L). exists t. destruct xs as [|x xs]; [contradiction|]. cbn [hd tl SimdRed.leaves SimdRed.teval app] in *.
  split; [rewrite L; apply Permutation_refl|]. rewrite <- E. cbn [fold_right]. clear. revert x. induction xs as [|y xs IH]; intros x; cbn [fold_left fold_right]; [lia|]. rewrite <- IH. lia.
Qed.
Lemma everything_ok : build_ok nop everything.
Proof. split; cbn [everything neon vdsp]; [intros L [= <-]; now left|]. intros lib [= <-]. split; [apply fold_right_once|]. split; intros; cbn [nop]; lia. Qed.
Lemma only_blas_ok : build_ok nop only_blas.
Proof. split; cbn [only_blas neon vdsp]; discriminate. Qed.

Definition bprog : list (@bcmd nat) :=
  [BPlain (CNew [KVec; KArr 3] (Node [Node [Leaf 1; Leaf 2; Leaf 3]; Node [Leaf 4; Leaf 5; Leaf 6]]));
   BPlain (CView (VTranspose ByRef 0 1) 0); BMatmul 0 1; BBinary AAdd 2 2; BAssignScalar AMul 3 2; BSum 3;
   BPlain (CView (VSlice [IUsize 0]) 2); BMatmul 2 5; BEinsum [0; 0] [[105; 106]; [107; 106]]%Z [105; 107]%Z;
   BPlain (CEqual 2 7); BPlain (CFlatiter 6); BPlain (CValue 4)].
Ltac bstep := cbn [all_fine]; split; [|split; [|let s := fresh in let E := fresh in intros s E; vm_compute in E; injection E as <-]].
Ltac bhere := intros a bc E; injection E as <- <-.
Ltac bsized := split; repeat constructor; intros _; reflexivity.
Lemma bprog_fine B : B = everything \/ B = only_blas \/ B = portable -> all_fine 0 1 nop (fun x => x) Nat.eqb B bprog (mkState [] [] []).
Proof.
  intros H. destruct H as [->|[->| ->]].
  all: cbn [bprog all_fine].
  all: bstep; [split; [|split; exact I]; split; [exists 1, [3]; reflexivity|]; split; [discriminate|]; exists [2; 3]; split; [|split; [|split; [reflexivity|cbn; lia]]]; cbn;
        repeat match goal with |- exists _, _ => eexists | |- _ /\ _ => split | |- Forall _ _ => constructor | |- _ = _ => reflexivity end|reflexivity|].
  all: bstep; [split; [|split; [exact I|bhere; exact I]]; bhere; exact I|reflexivity|].
  all: bstep; [split; [|split; [exact nat_csr|exact I]]; split; bhere; split; vm_compute; lia|
    split; [bhere; bsized|split; [bhere; bsized|intros _; bhere; right; split; [vm_compute; lia|bhere; vm_compute; exact I]]]|].
  all: bstep; [split; [|split; exact I]; split; [|split; [|discriminate]]; bhere; split; vm_compute; lia|exact I|].
  all: bstep; [split; [|split; [exact I|bhere; reflexivity]]; split; [bhere; split; vm_compute; lia|discriminate]|exact I|].
  all: bstep; [split; [|split; exact I]; split; [bhere; split; [split; vm_compute; lia|now left]|discriminate]|intros _; exact nat_csr|].
  all: bstep; [split; [|split; [exact I|bhere; vm_compute; lia]]; bhere; split; [cbn; lia|repeat constructor]|reflexivity|].
  all: bstep; [split; [|split; [exact nat_csr|exact I]]; split; bhere; split; vm_compute; lia|
    split; [bhere; bsized|split; [bhere; bsized|intros _; bhere; right; split; [vm_compute; lia|bhere; vm_compute; lia]]]|].
  all: bstep; [split; [|split; [exact nat_csr|exact I]]; split; [intros k [<-|[<-|[]]]; bhere; split; vm_compute; lia|]; split; [cbn; lia|];
      (split; [repeat constructor; unfold letter; lia|]); (split; [repeat constructor; unfold letter; lia|]);
      exists [106%Z], (fun l => if (l =? 106)%Z then 3 else 2); (split; [repeat constructor; cbn; intuition lia|]); split; [|split; [discriminate|split; [cbn; lia|]]];
      [intros l; cbn; split; [intros [<-|[<-|[<-|[]]]]; [exists [105; 106]%Z|exists [107; 106]%Z|exists [105; 106]%Z]; cbn; auto|intros (q & [<-|[<-|[]]] & J); cbn in J; intuition subst; auto]|
       constructor; [bhere; reflexivity|]; constructor; [bhere; reflexivity|constructor]]|intros k [<-|[<-|[]]]; bhere; bsized|].
  all: bstep; [split; [|split; exact I]; bhere; split; vm_compute; lia|reflexivity|].
  all: bstep; [split; [|split; exact I]; bhere; split; vm_compute; lia|reflexivity|].
  all: bstep; [split; [|split; exact I]; exact I|reflexivity|].
  all: exact I.
Qed.
Example C75_ex : build_ok nop everything /\ build_ok nop only_blas /\ all_fine 0 1 nop (fun x => x) Nat.eqb everything bprog (mkState [] [] []) /\
  all_fine 0 1 nop (fun x => x) Nat.eqb only_blas bprog (mkState [] [] []) /\
  let out B := match run_all 0 1 nop (fun x => x) Nat.eqb B bprog (mkState [] [] []) with Ok s => s_out s | _ => [] end in
  out portable = [OBool true; OVals [1220; 2912]; OVals [620]] /\ out only_blas = out portable /\ out everything = out portable.
Proof.
  split; [apply everything_ok|]. split; [apply only_blas_ok|]. split; [apply bprog_fine; auto|]. split; [apply bprog_fine; auto|]. vm_compute. auto.
Qed.
