(** PropsTrain.v: the gradients of the programs of README.md and src/bin/backwards.rs in closed
    form, for all sizes, all data and any number of rounds (C86). *)
From Coq Require Import List Arith Lia Bool ZArith Ring QArith Qcanon.
From Verif Require Import Base Spec SpecFacts Layout OpFacts SpecGrad Autograd GradMath GradFacts2 GradFacts4 GradFacts5 PropsGrad PropsGrad2
  SpecFlow FlowFacts FlowFacts2 PropsFlow.
Import ListNotations.
Open Scope res_scope.
Close Scope Qc_scope. Close Scope Q_scope. Open Scope nat_scope.

(** README.md:157-175, with an m x n matrix: (a / b) * (c + e), times b, and backward.
    Tensors 0, 1, 2 are a, b, c. *)
Definition readme {T} (m n : nat) (a b : list T) (c e : T) : list (instr T) :=
  [INew [m; n] a; INew [n] b; INew [] [c]; ISetGrad 0 true; ISetGrad 1 true;
   IBin BDiv 0 1; IScal BAdd 2 e; IBin BMul 3 4; IMatmul 5 1; IBackward 6].

(** src/bin/backwards.rs:10-37.  The tensors of earlier rounds are kept (the program drops
    them): round number r works on tensors 3r+3, 3r+4, 3r+5. *)
Definition bench0_setup {T} (n : nat) (a b c : list T) : list (instr T) :=
  [INew [n] a; INew [n] b; INew [n] c; ISetGrad 0 true; ISetGrad 1 true; ISetGrad 2 true].
Definition bench0_step {T} (N : num T) (n r : nat) : list (instr T) :=
  [IBin BMul 0 1; IScal BAdd 2 (n1 N); IBin BDiv (3 * r + 3) (3 * r + 4); IBackwardWith (3 * r + 5) (SNew [n] (repeat (n1 N) n))].
Definition bench0_clear {T} : list (instr T) := [IZeroGrad 0; IZeroGrad 1; IZeroGrad 2].
(** [rounds] whole rounds *)
Fixpoint bench0_rounds {T} (N : num T) (n rounds : nat) : list (instr T) :=
  match rounds with
  | O => []
  | S r => bench0_rounds N n r ++ bench0_step N n r ++ bench0_clear
  end.

(** src/bin/backwards.rs:39-65: tensors 0, 1, 2 are x, a, b *)
Definition bench1_setup {T} (i j : nat) (x a b : list T) : list (instr T) :=
  [INew [j] x; INew [i; j] a; INew [i] b; ISetGrad 1 true; ISetGrad 2 true].
Definition bench1_step {T} (N : num T) (i r : nat) : list (instr T) :=
  [IMatmul 1 0; IBin BAdd (2 * r + 3) 2; IBackwardWith (2 * r + 4) (SNew [i] (repeat (n1 N) i))].
Definition bench1_clear {T} : list (instr T) := [IZeroGrad 1; IZeroGrad 2].
Fixpoint bench1_rounds {T} (N : num T) (i rounds : nat) : list (instr T) :=
  match rounds with
  | O => []
  | S r => bench1_rounds N i r ++ bench1_step N i r ++ bench1_clear
  end.

(** tensor k has a gradient of shape [sh] and elements [v] *)
Definition has_gradient {T} (st : gstate (T := T)) (k : nat) (sh : list nat) (v : list nat -> T) : Prop :=
  exists t a, nth_error (g_ts st) k = Some t /\ t_gradient st t = Some a /\ shows (g_heap st) a sh v.

(** element of an array that is listed row by row *)
Definition elem {T} (N : num T) (sh : list nat) (l : list T) (o : list nat) : T := nth (rank o sh) l (n0 N).

Lemma join_same sh : join sh sh = sh.
Proof.
  unfold join, ones_left. rewrite Nat.sub_diag. cbn [repeat app]. induction sh as [|n sh IH]; [reflexivity|]. cbn [combine map fst snd]. rewrite IH. f_equal.
  unfold dim_join. now destruct (n =? 1).
Qed.
Lemma compatible_same sh : compatible sh sh = true.
Proof.
  unfold compatible, ones_left. rewrite Nat.sub_diag. cbn [repeat app]. induction sh as [|n sh IH]; [reflexivity|]. cbn [combine forallb fst snd]. now rewrite IH, Nat.eqb_refl.
Qed.
Lemma join_row m n : join [m; n] [n] = [m; n].
Proof.
  cbn. unfold dim_join. destruct (Nat.eqb_spec m 1) as [->|]; destruct (n =? 1); reflexivity.
Qed.
Lemma join_scalar m n : join [m; n] [] = [m; n].
Proof. cbn. unfold dim_join. destruct (Nat.eqb_spec m 1) as [->|], (Nat.eqb_spec n 1) as [->|]; reflexivity. Qed.
Lemma nth_repeat_in {A} (x d : A) n k : k < n -> nth k (repeat x n) d = x.
Proof. revert k. induction n as [|n IH]; intros [|k] H; cbn; try lia; auto. apply IH. lia. Qed.

Lemma compatible_row m n : compatible [m; n] [n] = true.
Proof. cbn. now rewrite Nat.eqb_refl, !orb_true_r. Qed.
Lemma compatible_scalar m n : compatible [m; n] [] = true.
Proof. cbn. now rewrite !orb_true_r. Qed.
Lemma fills_of {T} sh (l : list T) : length l = prod sh /\ length l <> 0 -> fills sh l = true.
Proof. intros [E P]. unfold fills. rewrite E in *. rewrite Nat.eqb_refl. destruct (Nat.eqb_spec (prod sh) 0); [contradiction|reflexivity]. Qed.
(** follow a program on layouts *)
Ltac lay := cbv beta iota zeta delta [lrun lstep nth_error app andb negb set_nth firstn skipn l_new l_rg l_sh l_st Bool.eqb orb toward l_flow stuck].

Section Train.
  Context {T : Type} (N : num T) (inv : T -> T).
  Hypothesis F : is_field N inv.
  Notation "0" := (n0 N). Notation "1" := (n1 N).
  Notation "x + y" := (nadd N x y). Notation "x * y" := (nmul N x y).
  Notation "x - y" := (nsub N x y). Notation "- x" := (nneg N x).
  Notation "x / y" := (ndiv N x y).
  Add Ring T_ring : (field_ring N inv F).

  Lemma has_gradient_of p k s j : admissible N p (s0 N) -> lrun p [] <> None ->
    nth_error (s_ts (srun N p (s0 N))) k = Some s -> s_leaf s = Some j ->
    forall st, run N p g0 = Ok st -> has_gradient st k (s_shape s) (s_G (srun N p (s0 N)) j).
  Proof.
    intros A L E Lf st R. destruct (C33_programs_partial T N inv F p A) as [P|(st' & R' & AG)]; [congruence|].
    rewrite R in R'. apply Ok_inj in R'. subst st'.
    assert (X : exists t, nth_error (g_ts st) k = Some t /\ agrees1 N st (srun N p (s0 N)) t s).
    { unfold agrees in AG. revert E. generalize dependent k. induction AG as [|x y l l' XY AG IH]; intros [|k] E; try discriminate; cbn [nth_error] in *; [injection E as <-; eauto|eauto]. }
    destruct X as (t & Et & _ & _ & G). rewrite Lf in G. destruct G as (g & Eg & SH). exists t, g. auto.
  Qed.
  Lemma runs p : admissible N p (s0 N) -> lrun p [] <> None -> exists st, run N p g0 = Ok st.
  Proof. intros A L. pose proof (C82_programs T N p A) as H. destruct (lrun p []); [|congruence]. destruct H as (st & E & _). eauto. Qed.

  Lemma has_gradient_ext (st : gstate (T := T)) k sh (v w : list nat -> T) : (forall o, in_range o sh -> v o = w o) -> has_gradient st k sh v -> has_gradient st k sh w.
  Proof. intros H (t & g & E1 & E2 & ES & H'). exists t, g. repeat split; auto. intros o O. now rewrite <- H, H'. Qed.

  (** ** the program of the README *)
  Section Readme.
    Context (m n : nat) (a b : list T) (c e : T).
    Hypothesis La : length a = (m * n)%nat.
    Hypothesis Lb : length b = n.
    Hypothesis Pm : m <> O.
    Hypothesis Pn : n <> O.
    Hypothesis Ib : forall j, j < n -> nth j b 0 * inv (nth j b 0) = 1.
    Let p := readme m n a b c e.

    Let av (o : list nat) : T := nth (rank o [m; n]) a 0.
    Let bv (o : list nat) : T := nth (rank o [n]) b 0.
    Let A := mkS true (Some O) true [m; n] (fun d o => (av o, d O o)).
    Let B := mkS true (Some 1%nat) true [n] (fun d o => (bv o, d 1%nat o)).
    Let term (d : pert) (o t : nat) : T * T :=
      nmul (dual N) (nmul (dual N) (ndiv (dual N) (av (bidx [m; n] (bidx [m; n] [o; t])), d O (bidx [m; n] (bidx [m; n] [o; t])))
                                                  (bv (bidx [n] (bidx [m; n] [o; t])), d 1%nat (bidx [n] (bidx [m; n] [o; t]))))
                                   (nadd (dual N) (c, 0) (e, 0))) (bv [t], d 1%nat [t]).
    Let y := mkS true None true [m] (fun d o => total (dual N) (map (term d (nth 0 o O)) (seq 0 n))).

    Lemma readme_machine : admissible N p (s0 N) /\ exists R,
      s_ts (srun N p (s0 N)) = A :: B :: R /\
      forall k o, k < 2 -> s_G (srun N p (s0 N)) k o = vjp N y (fun _ => 1) k o.
    Proof.
      unfold p, readme. cbv [admissible srun fold_left sstep in_scope with1 with2 s_ts s0 nth_error s_push app s_result set_nth firstn skipn s_rg s_leaves length s_shape s_val s_leaf s_rm s_backward orb fst snd s_G].
      rewrite !join_row, !join_scalar. cbv [m_product fst snd].
      split.
      - repeat split; unfold small; cbv [s_ts]; repeat (constructor; [cbn [s_shape length]; unfold MAX_DIMS; lia|]); constructor.
      - eexists. split; [reflexivity|]. intros k o K. 
        change (match (k =? 1) with true => 0 | false => match (k =? 0) with true => 0 | false => 0 end end + vjp N y (fun _ => 1) k o = vjp N y (fun _ => 1) k o).
        destruct k as [|[|k]]; [| |lia]; cbn [Nat.eqb]; ring.
    Qed.

    Lemma readme_layout : lrun p [] <> None.
    Proof.
      unfold p, readme. lay. rewrite (fills_of [m; n] a) by (cbn [prod fold_right]; nia). lay. rewrite (fills_of [n] b) by (cbn [prod fold_right]; lia). lay.
      change (fills [] [c]) with true. lay. rewrite compatible_row, join_row. lay. rewrite compatible_scalar, join_scalar. lay. rewrite Nat.eqb_refl. lay.
      destruct (list_eq_dec Nat.eq_dec [m; n] [m; n]); [|congruence]. lay.
      destruct (list_eq_dec Nat.eq_dec [m; n] [m; n]); [|congruence]. lay.
      destruct (list_eq_dec Nat.eq_dec [n] [m; n]); [congruence|]. lay.
      assert (X : sums_away [n] [m; n] = false).
      { unfold sums_away. cbn. destruct n as [|[|k]]; reflexivity. }
      rewrite X. discriminate.
    Qed.

    Lemma readme_sum k idx : vjp N y (fun _ => 1) k idx =
      total N (map (fun o => total N (map (fun t => snd (term (unit_pert N k idx) o t)) (seq 0 n))) (seq 0 m)).
    Proof.
      unfold vjp. cbn [s_shape y s_val]. rewrite (inner1 N inv F). apply (total_ext N). intros o _. cbn [nth]. rewrite dual_total_snd, map_map. ring.
    Qed.
    Lemma bidx_row o t : o < m -> t < n -> bidx [m; n] [o; t] = [o; t] /\ bidx [n] [o; t] = [t].
    Proof.
      intros O T'. split; [apply bidx_same; repeat constructor; auto|].
      assert (X : bidx [n] [o; t] = bidx [n] [t]) by reflexivity. rewrite X. apply bidx_same. repeat constructor. auto.
    Qed.
    Lemma bv_ok t : t < n -> bv [t] * inv (bv [t]) = 1.
    Proof. intros H. unfold bv. replace (rank [t] [n]) with t by (cbn; lia). now apply Ib. Qed.
    Lemma term_at d o t : o < m -> t < n -> snd (term d o t) =
      ((d O [o; t] / bv [t] - av [o; t] * d 1%nat [t] / (bv [t] * bv [t])) * (c + e) + av [o; t] / bv [t] * (0 + 0)) * bv [t]
      + av [o; t] / bv [t] * (c + e) * d 1%nat [t].
    Proof.
      intros O T'. destruct (bidx_row o t O T') as [E1 E2]. unfold term. rewrite !E1, E2. reflexivity.
    Qed.

    Lemma readme_gradients : (forall idx, in_range idx [m; n] -> vjp N y (fun _ => 1) O idx = c + e) /\
      (forall idx, in_range idx [n] -> vjp N y (fun _ => 1) 1%nat idx = 0).
    Proof.
      split.
      - intros idx R. rewrite readme_sum. apply in_range2 in R as (i & j & -> & I & J).
        transitivity (total N (map (fun o => if Nat.eq_dec o i then c + e else 0) (seq 0 m))).
        2: { apply (total_single N inv F Nat.eq_dec (fun _ => c + e)); [apply seq_NoDup|apply in_seq; lia]. }
        apply (total_ext N). intros o Ho. apply in_seq in Ho.
        transitivity (total N (map (fun t => if Nat.eq_dec t j then (if Nat.eq_dec o i then c + e else 0) else 0) (seq 0 n))).
        2: { apply (total_single N inv F Nat.eq_dec (fun _ => if Nat.eq_dec o i then c + e else 0)); [apply seq_NoDup|apply in_seq; lia]. }
        apply (total_ext N). intros t Ht. apply in_seq in Ht. rewrite term_at by lia. rewrite !(fld_div _ _ F). unfold unit_pert. cbn [Nat.eqb andb].
        pose proof (bv_ok t ltac:(lia)) as U. set (x := bv [t]) in *.
        destruct (list_eq_dec Nat.eq_dec [o; t] [i; j]) as [Q|Q].
        + injection Q as -> ->. destruct (Nat.eq_dec j j); [|congruence]. destruct (Nat.eq_dec i i); [|congruence].
          transitivity ((x * inv x) * (c + e)); [ring|]. rewrite U. ring.
        + destruct (Nat.eq_dec t j) as [->|]; [destruct (Nat.eq_dec o i) as [->|]; [congruence|]|]; ring.
      - intros idx R. rewrite readme_sum. apply in_range1 in R as (j & -> & J).
        rewrite (total_ext N _ (fun _ => 0)); [apply (total_zero N inv F)|]. intros o Ho. apply in_seq in Ho.
        rewrite (total_ext N _ (fun _ => 0)); [apply (total_zero N inv F)|]. intros t Ht. apply in_seq in Ht.
        rewrite term_at by lia. rewrite !(fld_div _ _ F), (fld_inv _ _ F). unfold unit_pert. cbn [Nat.eqb andb].
        pose proof (bv_ok t ltac:(lia)) as U. set (x := bv [t]) in *. generalize (if (if list_eq_dec Nat.eq_dec [t] [j] then true else false) then 1 else 0). intros d.
        transitivity (av [o; t] * (c + e) * d * inv x * (1 - x * inv x)); [ring|]. rewrite U. ring.
    Qed.

    Lemma readme_done : exists st, run N p g0 = Ok st /\ has_gradient st 0 [m; n] (fun _ => c + e) /\ has_gradient st 1 [n] (fun _ => 0).
    Proof.
      destruct readme_machine as (AD & R & E & G). pose proof readme_layout as L. destruct (runs p AD L) as [st RN]. exists st. split; [exact RN|].
      destruct readme_gradients as [G1 G2]. split.
      - apply (has_gradient_ext st 0%nat [m; n] (s_G (srun N p (s0 N)) O)); [intros o O; rewrite G by lia; now apply G1|].
        apply (has_gradient_of p 0%nat A O%nat AD L); [rewrite E; reflexivity|reflexivity|exact RN].
      - apply (has_gradient_ext st 1%nat [n] (s_G (srun N p (s0 N)) 1%nat)); [intros o O; rewrite G by lia; now apply G2|].
        apply (has_gradient_of p 1%nat B 1%nat AD L); [rewrite E; reflexivity|reflexivity|exact RN].
    Qed.
  End Readme.

  Lemma nth_app_0 {A} (l : list A) x r k : k = length l -> nth_error (l ++ x :: r) k = Some x.
  Proof. intros ->. rewrite nth_error_app2, Nat.sub_diag by lia. reflexivity. Qed.
  Lemma nth_app_1 {A} (l : list A) x x' r k : k = S (length l) -> nth_error (l ++ x :: x' :: r) k = Some x'.
  Proof. intros ->. rewrite nth_error_app2, Nat.sub_succ_l, Nat.sub_diag by lia. reflexivity. Qed.
  Lemma nth_app_2 {A} (l : list A) x x' x'' r k : k = S (S (length l)) -> nth_error (l ++ x :: x' :: x'' :: r) k = Some x''.
  Proof. intros ->. rewrite nth_error_app2, !Nat.sub_succ_l, Nat.sub_diag by lia. reflexivity. Qed.
  Definition thin (t : stensor (T := T)) : Prop := length (s_shape t) <= MAX_DIMS.

  Lemma lrun_app (p q : list (instr T)) ls : lrun (p ++ q) ls = match lrun p ls with Some ls' => lrun q ls' | None => None end.
  Proof. revert ls. induction p as [|x p IH]; intros ls; [reflexivity|]. cbn [app lrun]. destruct (lstep ls x); auto. Qed.
  (** ** backward0 *)
  Section Bench0.
    Context (n : nat) (a b c : list T).
    Hypothesis La : length a = n.
    Hypothesis Lb : length b = n.
    Hypothesis Lc : length c = n.
    Hypothesis Pn : n <> O.
    Let v (l : list T) (o : list nat) : T := nth (rank o [n]) l 0.
    Let leaf k l := mkS true (Some k) true [n] (fun d o => (v l o, d k o)).
    Let st0 (R : list stensor) G := mkSS (leaf O a :: leaf 1%nat b :: leaf 2 c :: R) [[n]; [n]; [n]] G.
    Let p1 := mkS true None true [n] (fun d o => nmul (dual N) (v a (bidx [n] o), d O (bidx [n] o)) (v b (bidx [n] o), d 1%nat (bidx [n] o))).
    Let p2 := mkS true (Some 2) true [n] (fun d o => nadd (dual N) (v c o, d 2 o) (1, 0)).
    Let y := mkS true None true [n] (fun d o => ndiv (dual N) (s_val p1 d (bidx [n] o)) (s_val p2 d (bidx [n] o))).
    Let seed (o : list nat) : T := nth (rank o [n]) (repeat 1 n) 0.

    Lemma bench0_starts : admissible N (bench0_setup n a b c) (s0 N) /\ exists G,
      srun N (bench0_setup n a b c) (s0 N) = st0 [] G /\ forall k o, k < 3 -> G k o = 0.
    Proof.
      unfold bench0_setup. cbv [admissible srun fold_left sstep in_scope with1 with2 s_ts s0 nth_error s_push app s_result set_nth firstn skipn s_rg s_leaves length s_shape s_val s_leaf s_rm s_backward orb fst snd s_G].
      split.
      - repeat split; unfold small; cbv [s_ts]; repeat (constructor; [cbn [s_shape length]; unfold MAX_DIMS; lia|]); constructor.
      - eexists. split; [reflexivity|]. intros [|[|[|k]]] o K; [reflexivity..|lia].
    Qed.
    Lemma st0_small R G : Forall thin R -> small (st0 R G).
    Proof. intros H. unfold small, st0. cbn [s_ts]. repeat (constructor; [cbn [s_shape length leaf]; unfold MAX_DIMS; lia|]). exact H. Qed.
    Lemma st0_nth R G k : nth_error (s_ts (st0 R G)) (S (S (S k))) = nth_error R k.
    Proof. reflexivity. Qed.
    Lemma bench0_steps r R G : length R = (3 * r)%nat -> Forall thin R ->
      admissible N (bench0_step N n r) (st0 R G) /\
      srun N (bench0_step N n r) (st0 R G) = st0 (R ++ [p1; p2; y]) (fun k o => G k o + vjp N y seed k o).
    Proof.
      intros L TH. unfold bench0_step.
      assert (E1 : sstep N (st0 R G) (IBin BMul 0 1) = st0 (R ++ [p1]) G).
      { cbn [sstep]. unfold with2, with1. cbn [st0 s_ts nth_error leaf s_shape s_rg]. rewrite join_same. reflexivity. }
      assert (E2 : sstep N (st0 (R ++ [p1]) G) (IScal BAdd 2 1) = st0 (R ++ [p1; p2]) G).
      { cbn [sstep]. unfold with1. cbn [st0 s_ts nth_error leaf]. unfold s_push, st0. cbn [s_ts s_leaves s_G app]. rewrite <- app_assoc. reflexivity. }
      assert (E3 : sstep N (st0 (R ++ [p1; p2]) G) (IBin BDiv (3 * r + 3)%nat (3 * r + 4)%nat) = st0 (R ++ [p1; p2; y]) G).
      { cbn [sstep]. unfold with2, with1. replace (3 * r + 3)%nat with (S (S (S (3 * r)))) by lia. replace (3 * r + 4)%nat with (S (S (S (S (3 * r))))) by lia.
        rewrite !st0_nth, (nth_app_0 R p1 [p2]), (nth_app_1 R p1 p2 []) by lia. cbn [p1 p2 s_shape s_rg]. rewrite join_same. unfold s_push, st0. cbn [s_ts s_leaves s_G app].
        rewrite <- app_assoc. reflexivity. }
      assert (E4 : sstep N (st0 (R ++ [p1; p2; y]) G) (IBackwardWith (3 * r + 5)%nat (SNew [n] (repeat 1 n))) = st0 (R ++ [p1; p2; y]) (fun k o => G k o + vjp N y seed k o)).
      { cbn [sstep]. unfold with1. replace (3 * r + 5)%nat with (S (S (S (S (S (3 * r)))))) by lia. rewrite st0_nth, (nth_app_2 R p1 p2 y []) by lia. reflexivity. }
      assert (T1 : Forall thin [p1; p2; y]) by (repeat constructor; unfold thin; cbn; unfold MAX_DIMS; lia).
      unfold srun. cbn [admissible fold_left in_scope]. rewrite E1, E2, E3, E4. split; [|reflexivity].
      repeat split; apply st0_small; apply Forall_app; (split; [exact TH|]); auto; inversion T1 as [|? ? X1 X2]; subst; inversion X2; subst; auto.
    Qed.
    Lemma bench0_clears R G : Forall thin R -> admissible N bench0_clear (st0 R G) /\
      exists G', srun N bench0_clear (st0 R G) = st0 R G' /\ forall k o, k < 3 -> G' k o = 0.
    Proof.
      intros TH. unfold bench0_clear. split.
      - cbn [admissible in_scope]. cbn [sstep]. unfold with1. cbn [st0 s_ts nth_error leaf s_leaf s_leaves s_G]. repeat split; apply (st0_small R _ TH).
      - unfold srun. cbn [fold_left sstep]. unfold with1. cbn [st0 s_ts nth_error leaf s_leaf s_leaves s_G]. eexists. split; [reflexivity|].
        intros [|[|[|k]]] o K; [reflexivity..|lia].
    Qed.
    Lemma bench0_machine rounds : admissible N (bench0_setup n a b c ++ bench0_rounds N n rounds) (s0 N) /\ exists R G,
      srun N (bench0_setup n a b c ++ bench0_rounds N n rounds) (s0 N) = st0 R G /\ length R = (3 * rounds)%nat /\ Forall thin R /\
      forall k o, k < 3 -> G k o = 0.
    Proof.
      induction rounds as [|r (A & R & G & E & L & TH & Z)].
      - cbn [bench0_rounds]. rewrite app_nil_r. destruct bench0_starts as (A & G & E & Z). split; [exact A|]. exists [], G. rewrite E. repeat split; auto.
      - cbn [bench0_rounds]. rewrite app_assoc. set (q := bench0_setup n a b c ++ bench0_rounds N n r) in *. rewrite !admissible_app, !srun_app, E.
        destruct (bench0_steps r R G L TH) as [A1 E1]. rewrite E1.
        assert (S' : Forall thin (R ++ [p1; p2; y])) by (apply Forall_app; split; [exact TH|]; repeat constructor; unfold thin; cbn; unfold MAX_DIMS; lia).
        destruct (bench0_clears (R ++ [p1; p2; y]) (fun k o => G k o + vjp N y seed k o) S') as (A2 & G' & E2 & Z').
        split; [tauto|]. exists (R ++ [p1; p2; y]), G'. rewrite E2. repeat split; auto. rewrite app_length, L. cbn. lia.
    Qed.

    (** layouts *)
    Let ll := mkL true [n] (row_major [n]) FLeaf.
    Let ls0 (R : list ltensor) := ll :: ll :: ll :: R.
    Let q1 := mkL true [n] (row_major [n]) (FBoth (FTo WNew [n] FLeaf) (FTo WNew [n] FLeaf)).
    Let q3 := mkL true [n] (row_major [n]) (FBoth (toward WNew q1) (toward WNew ll)).
    Lemma ls0_nth R k : nth_error (ls0 R) (S (S (S k))) = nth_error R k.
    Proof. reflexivity. Qed.
    Lemma straight e : stuck e [n] (row_major [n]) = false -> stuck (FTo WNew [n] e) [n] (row_major [n]) = false.
    Proof. intros H. cbn [stuck]. destruct (list_eq_dec Nat.eq_dec [n] [n]); [exact H|congruence]. Qed.
    Lemma fork e e' : stuck e [n] (row_major [n]) = false -> stuck e' [n] (row_major [n]) = false -> stuck (FBoth e e') [n] (row_major [n]) = false.
    Proof. intros H H'. cbn [stuck]. now rewrite H, H'. Qed.
    Lemma bench0_step_layout r R : length R = (3 * r)%nat -> lrun (bench0_step N n r) (ls0 R) = Some (ls0 (R ++ [q1; ll; q3])).
    Proof.
      intros L. unfold bench0_step.
      assert (E1 : lstep (T := T) (ls0 R) (IBin BMul 0 1) = Some (ls0 (R ++ [q1]))).
      { cbn [lstep]. cbn [ls0 nth_error ll l_sh]. rewrite compatible_same, join_same. reflexivity. }
      assert (E2 : lstep (T := T) (ls0 (R ++ [q1])) (IScal BAdd 2 1) = Some (ls0 (R ++ [q1; ll]))).
      { cbn [lstep]. cbn [ls0 nth_error ll l_sh app]. rewrite <- app_assoc. reflexivity. }
      assert (E3 : lstep (T := T) (ls0 (R ++ [q1; ll])) (IBin BDiv (3 * r + 3)%nat (3 * r + 4)%nat) = Some (ls0 (R ++ [q1; ll; q3]))).
      { cbn [lstep]. replace (3 * r + 3)%nat with (S (S (S (3 * r)))) by lia. replace (3 * r + 4)%nat with (S (S (S (S (3 * r))))) by lia.
        rewrite !ls0_nth, (nth_app_0 R q1 [ll]), (nth_app_1 R q1 ll []) by lia. cbn [q1 ll l_sh]. rewrite compatible_same, join_same. cbn [ls0 app]. rewrite <- app_assoc. reflexivity. }
      assert (E4 : lstep (ls0 (R ++ [q1; ll; q3])) (IBackwardWith (3 * r + 5)%nat (SNew [n] (repeat 1 n))) = Some (ls0 (R ++ [q1; ll; q3]))).
      { cbn [lstep]. replace (3 * r + 5)%nat with (S (S (S (S (S (3 * r)))))) by lia. rewrite ls0_nth, (nth_app_2 R q1 ll q3 []) by lia.
        rewrite fills_of by (rewrite repeat_length; cbn [prod fold_right]; lia). cbn [q3 l_sh l_flow]. unfold same_shape. destruct (list_eq_dec Nat.eq_dec [n] [n]); [|congruence].
        assert (X : stuck (FBoth (toward WNew q1) (toward WNew ll)) [n] (row_major [n]) = false).
        { apply fork; apply straight; [apply fork; apply straight|]; reflexivity. }
        rewrite X. reflexivity. }
      cbn [lrun]. rewrite E1, E2, E3, E4. reflexivity.
    Qed.
    Lemma bench0_layout rounds : exists R, length R = (3 * rounds)%nat /\ lrun (bench0_setup n a b c ++ bench0_rounds N n rounds) [] = Some (ls0 R).
    Proof.
      induction rounds as [|r (R & L & E)].
      - exists []. split; [reflexivity|]. cbn [bench0_rounds]. rewrite app_nil_r. unfold bench0_setup. lay.
        rewrite (fills_of [n] a) by (cbn [prod fold_right]; lia). lay. rewrite (fills_of [n] b) by (cbn [prod fold_right]; lia). lay. rewrite (fills_of [n] c) by (cbn [prod fold_right]; lia). reflexivity.
      - exists (R ++ [q1; ll; q3]). split; [rewrite app_length, L; cbn; lia|]. cbn [bench0_rounds]. rewrite app_assoc, lrun_app, E, lrun_app, bench0_step_layout by exact L. reflexivity.
    Qed.

    (** gradients of one round *)
    Lemma seed_ones o : in_range o [n] -> seed o = 1.
    Proof. intros R. apply in_range1 in R as (i & -> & I). unfold seed. apply nth_repeat_in. cbn. lia. Qed.
    Lemma y_at d o : in_range o [n] -> snd (s_val y d o) =
      (d O o * v b o + v a o * d 1%nat o) / (v c o + 1) - v a o * v b o * (d 2 o + 0) / ((v c o + 1) * (v c o + 1)).
    Proof. intros R. cbn [y s_val p1 p2]. rewrite !(bidx_same [n] o R). reflexivity. Qed.
    Lemma vjp_delta k idx (f : list nat -> T) : in_range idx [n] ->
      (forall o, in_range o [n] -> snd (s_val y (unit_pert N k idx) o) = f o * (if list_eq_dec Nat.eq_dec o idx then 1 else 0)) ->
      vjp N y seed k idx = f idx.
    Proof.
      intros R H. unfold vjp. cbn [y s_shape]. rewrite <- (inner_unit N inv F [n] f idx R). apply (inner_pointwise N).
      intros o O. rewrite seed_ones, H by exact O. ring.
    Qed.
    Lemma bench0_gradients idx : in_range idx [n] ->
      vjp N y seed O idx = v b idx / (v c idx + 1) /\ vjp N y seed 1%nat idx = v a idx / (v c idx + 1) /\
      vjp N y seed 2 idx = - (v a idx * v b idx / ((v c idx + 1) * (v c idx + 1))).
    Proof.
      intros R. repeat split.
      - apply (vjp_delta O idx (fun o => v b o / (v c o + 1)) R). intros o O. rewrite y_at by exact O. unfold unit_pert. cbn [Nat.eqb andb]. rewrite !(fld_div _ _ F).
        destruct (list_eq_dec Nat.eq_dec o idx); ring.
      - apply (vjp_delta 1%nat idx (fun o => v a o / (v c o + 1)) R). intros o O. rewrite y_at by exact O. unfold unit_pert. cbn [Nat.eqb andb]. rewrite !(fld_div _ _ F).
        destruct (list_eq_dec Nat.eq_dec o idx); ring.
      - apply (vjp_delta 2 idx (fun o => - (v a o * v b o / ((v c o + 1) * (v c o + 1)))) R). intros o O. rewrite y_at by exact O. unfold unit_pert. cbn [Nat.eqb andb]. rewrite !(fld_div _ _ F).
        destruct (list_eq_dec Nat.eq_dec o idx); ring.
    Qed.

    Lemma bench0_done rounds : let q := bench0_setup n a b c ++ bench0_rounds N n rounds in
      (exists st, run N q g0 = Ok st /\ has_gradient st 0 [n] (fun _ => 0) /\ has_gradient st 1 [n] (fun _ => 0) /\ has_gradient st 2 [n] (fun _ => 0)) /\
      (exists st, run N (q ++ bench0_step N n rounds) g0 = Ok st /\
         has_gradient st 0 [n] (fun o => v b o / (v c o + 1)) /\ has_gradient st 1 [n] (fun o => v a o / (v c o + 1)) /\
         has_gradient st 2 [n] (fun o => - (v a o * v b o / ((v c o + 1) * (v c o + 1))))).
    Proof.
      intros q. destruct (bench0_machine rounds) as (AD & R & G & E & LR & TH & Z). destruct (bench0_layout rounds) as (R' & LR' & EL). fold q in AD, E, EL. split.
      - assert (L : lrun q [] <> None) by congruence. destruct (runs q AD L) as [st RN]. exists st. split; [exact RN|].
        split; [|split].
        + apply (has_gradient_ext st 0%nat [n] (s_G (srun N q (s0 N)) 0%nat)); [intros o O; rewrite E; exact (Z 0%nat o ltac:(lia))|].
          apply (has_gradient_of q 0%nat (leaf 0%nat a) 0%nat AD L); [rewrite E; reflexivity|reflexivity|exact RN].
        + apply (has_gradient_ext st 1%nat [n] (s_G (srun N q (s0 N)) 1%nat)); [intros o O; rewrite E; exact (Z 1%nat o ltac:(lia))|].
          apply (has_gradient_of q 1%nat (leaf 1%nat b) 1%nat AD L); [rewrite E; reflexivity|reflexivity|exact RN].
        + apply (has_gradient_ext st 2%nat [n] (s_G (srun N q (s0 N)) 2%nat)); [intros o O; rewrite E; exact (Z 2%nat o ltac:(lia))|].
          apply (has_gradient_of q 2%nat (leaf 2%nat c) 2%nat AD L); [rewrite E; reflexivity|reflexivity|exact RN].
      - destruct (bench0_steps rounds R G LR TH) as [A1 E1].
        assert (AD' : admissible N (q ++ bench0_step N n rounds) (s0 N)) by (rewrite admissible_app, E; auto).
        assert (E' : srun N (q ++ bench0_step N n rounds) (s0 N) = st0 (R ++ [p1; p2; y]) (fun k o => G k o + vjp N y seed k o)) by (rewrite srun_app, E; exact E1).
        assert (L : lrun (q ++ bench0_step N n rounds) [] <> None) by (rewrite lrun_app, EL, bench0_step_layout by exact LR'; discriminate).
        destruct (runs _ AD' L) as [st RN]. exists st. split; [exact RN|].
        split; [|split].
        + apply (has_gradient_ext st 0%nat [n] (s_G (srun N (q ++ bench0_step N n rounds) (s0 N)) 0%nat)); [intros o O; rewrite E'; cbn [st0 s_G]; rewrite (Z 0%nat o ltac:(lia)), (proj1 (bench0_gradients o O)); ring|].
          apply (has_gradient_of (q ++ bench0_step N n rounds) 0%nat (leaf 0%nat a) 0%nat AD' L); [rewrite E'; reflexivity|reflexivity|exact RN].
        + apply (has_gradient_ext st 1%nat [n] (s_G (srun N (q ++ bench0_step N n rounds) (s0 N)) 1%nat)); [intros o O; rewrite E'; cbn [st0 s_G]; rewrite (Z 1%nat o ltac:(lia)), (proj1 (proj2 (bench0_gradients o O))); ring|].
          apply (has_gradient_of (q ++ bench0_step N n rounds) 1%nat (leaf 1%nat b) 1%nat AD' L); [rewrite E'; reflexivity|reflexivity|exact RN].
        + apply (has_gradient_ext st 2%nat [n] (s_G (srun N (q ++ bench0_step N n rounds) (s0 N)) 2%nat)); [intros o O; rewrite E'; cbn [st0 s_G]; rewrite (Z 2%nat o ltac:(lia)), (proj2 (proj2 (bench0_gradients o O))); ring|].
          apply (has_gradient_of (q ++ bench0_step N n rounds) 2%nat (leaf 2%nat c) 2%nat AD' L); [rewrite E'; reflexivity|reflexivity|exact RN].
    Qed.
  End Bench0.

  (** ** backward1 *)
  Section Bench1.
    Context (i j : nat) (x a b : list T).
    Hypothesis Lx : length x = j.
    Hypothesis La : length a = (i * j)%nat.
    Hypothesis Lb : length b = i.
    Hypothesis Pi : i <> O.
    Hypothesis Pj : j <> O.
    Let xv (o : list nat) : T := nth (rank o [j]) x 0.
    Let av (o : list nat) : T := nth (rank o [i; j]) a 0.
    Let bv (o : list nat) : T := nth (rank o [i]) b 0.
    Let X := mkS false None true [j] (fun _ o => (xv o, 0)).
    Let A := mkS true (Some O) true [i; j] (fun d o => (av o, d O o)).
    Let B := mkS true (Some 1%nat) true [i] (fun d o => (bv o, d 1%nat o)).
    Let st1 (R : list stensor) G := mkSS (X :: A :: B :: R) [[i; j]; [i]] G.
    Let p1 := mkS true None true [i] (fun d => m_matvec (dual N) j (fun o => (av o, d O o)) (fun o => (xv o, 0))).
    Let y := mkS true None true [i] (fun d o => nadd (dual N) (s_val p1 d (bidx [i] o)) (bv (bidx [i] o), d 1%nat (bidx [i] o))).
    Let seed (o : list nat) : T := nth (rank o [i]) (repeat 1 i) 0.

    Lemma bench1_starts : admissible N (bench1_setup i j x a b) (s0 N) /\ exists G,
      srun N (bench1_setup i j x a b) (s0 N) = st1 [] G /\ forall k o, k < 2 -> G k o = 0.
    Proof.
      unfold bench1_setup. cbv [admissible srun fold_left sstep in_scope with1 with2 s_ts s0 nth_error s_push app s_result set_nth firstn skipn s_rg s_leaves length s_shape s_val s_leaf s_rm s_backward orb fst snd s_G].
      split.
      - repeat split; unfold small; cbv [s_ts]; repeat (constructor; [cbn [s_shape length]; unfold MAX_DIMS; lia|]); constructor.
      - eexists. split; [reflexivity|]. intros [|[|k]] o K; [reflexivity..|lia].
    Qed.
    Lemma st1_small R G : Forall thin R -> small (st1 R G).
    Proof. intros H. unfold small, st1. cbn [s_ts]. repeat (constructor; [cbn [s_shape length X A B]; unfold MAX_DIMS; lia|]). exact H. Qed.
    Lemma st1_nth R G k : nth_error (s_ts (st1 R G)) (S (S (S k))) = nth_error R k.
    Proof. reflexivity. Qed.
    Lemma bench1_steps r R G : length R = (2 * r)%nat -> Forall thin R ->
      admissible N (bench1_step N i r) (st1 R G) /\
      srun N (bench1_step N i r) (st1 R G) = st1 (R ++ [p1; y]) (fun k o => G k o + vjp N y seed k o).
    Proof.
      intros L TH. unfold bench1_step.
      assert (E1 : sstep N (st1 R G) (IMatmul 1 0) = st1 (R ++ [p1]) G) by reflexivity.
      assert (E2 : sstep N (st1 (R ++ [p1]) G) (IBin BAdd (2 * r + 3)%nat 2) = st1 (R ++ [p1; y]) G).
      { cbn [sstep]. unfold with2, with1. replace (2 * r + 3)%nat with (S (S (S (2 * r)))) by lia.
        rewrite st1_nth, (nth_app_0 R p1 []) by lia. cbn [st1 s_ts nth_error p1 B s_shape s_rg]. rewrite join_same. unfold s_push, st1. cbn [s_ts s_leaves s_G app].
        rewrite <- app_assoc. reflexivity. }
      assert (E3 : sstep N (st1 (R ++ [p1; y]) G) (IBackwardWith (2 * r + 4)%nat (SNew [i] (repeat 1 i))) = st1 (R ++ [p1; y]) (fun k o => G k o + vjp N y seed k o)).
      { cbn [sstep]. unfold with1. replace (2 * r + 4)%nat with (S (S (S (S (2 * r))))) by lia. rewrite st1_nth, (nth_app_1 R p1 y []) by lia. reflexivity. }
      assert (T1 : thin p1 /\ thin y) by (split; unfold thin; cbn; unfold MAX_DIMS; lia). destruct T1 as [T1 T2].
      unfold srun. cbn [admissible fold_left in_scope]. rewrite E1, E2, E3. split; [|reflexivity].
      repeat split; apply st1_small; apply Forall_app; (split; [exact TH|]); auto.
    Qed.
    Lemma bench1_clears R G : Forall thin R -> admissible N bench1_clear (st1 R G) /\
      exists G', srun N bench1_clear (st1 R G) = st1 R G' /\ forall k o, k < 2 -> G' k o = 0.
    Proof.
      intros TH. unfold bench1_clear. split.
      - cbn [admissible in_scope]. cbn [sstep]. unfold with1. cbn [st1 s_ts nth_error X A B s_leaf s_leaves s_G]. repeat split; apply (st1_small R _ TH).
      - unfold srun. cbn [fold_left sstep]. unfold with1. cbn [st1 s_ts nth_error X A B s_leaf s_leaves s_G]. eexists. split; [reflexivity|].
        intros [|[|k]] o K; [reflexivity..|lia].
    Qed.
    Lemma bench1_machine rounds : admissible N (bench1_setup i j x a b ++ bench1_rounds N i rounds) (s0 N) /\ exists R G,
      srun N (bench1_setup i j x a b ++ bench1_rounds N i rounds) (s0 N) = st1 R G /\ length R = (2 * rounds)%nat /\ Forall thin R /\
      forall k o, k < 2 -> G k o = 0.
    Proof.
      induction rounds as [|r (AD & R & G & E & L & TH & Z)].
      - cbn [bench1_rounds]. rewrite app_nil_r. destruct bench1_starts as (AD & G & E & Z). split; [exact AD|]. exists [], G. rewrite E. repeat split; auto.
      - cbn [bench1_rounds]. rewrite app_assoc. set (q := bench1_setup i j x a b ++ bench1_rounds N i r) in *. rewrite !admissible_app, !srun_app, E.
        destruct (bench1_steps r R G L TH) as [A1 E1]. rewrite E1.
        assert (TH' : Forall thin (R ++ [p1; y])) by (apply Forall_app; split; [exact TH|]; repeat constructor; unfold thin; cbn; unfold MAX_DIMS; lia).
        destruct (bench1_clears (R ++ [p1; y]) (fun k o => G k o + vjp N y seed k o) TH') as (A2 & G' & E2 & Z').
        split; [tauto|]. exists (R ++ [p1; y]), G'. rewrite E2. repeat split; auto. rewrite app_length, L. cbn. lia.
    Qed.

    Let lx := mkL false [j] (row_major [j]) FNone.
    Let la := mkL true [i; j] (row_major [i; j]) FLeaf.
    Let lb := mkL true [i] (row_major [i]) FLeaf.
    Let ls1 (R : list ltensor) := lx :: la :: lb :: R.
    Let q1 := mkL true [i] (row_major [i]) (FBoth (FTo WWhole [i; j] FLeaf) FNone).
    Let q2 := mkL true [i] (row_major [i]) (FBoth (toward WSame q1) (toward WSame lb)).
    Lemma ls1_nth R k : nth_error (ls1 R) (S (S (S k))) = nth_error R k.
    Proof. reflexivity. Qed.
    Lemma bench1_step_layout r R : length R = (2 * r)%nat -> lrun (bench1_step N i r) (ls1 R) = Some (ls1 (R ++ [q1; q2])).
    Proof.
      intros L. unfold bench1_step.
      assert (E1 : lstep (T := T) (ls1 R) (IMatmul 1 0) = Some (ls1 (R ++ [q1]))).
      { cbn [lstep]. cbn [ls1 nth_error la lx l_sh]. rewrite Nat.eqb_refl. reflexivity. }
      assert (E2 : lstep (T := T) (ls1 (R ++ [q1])) (IBin BAdd (2 * r + 3)%nat 2) = Some (ls1 (R ++ [q1; q2]))).
      { cbn [lstep]. replace (2 * r + 3)%nat with (S (S (S (2 * r)))) by lia.
        rewrite ls1_nth, (nth_app_0 R q1 []) by lia. cbn [ls1 nth_error q1 lb l_sh]. rewrite compatible_same, join_same. cbn [ls1 app]. rewrite <- app_assoc. reflexivity. }
      assert (E3 : lstep (ls1 (R ++ [q1; q2])) (IBackwardWith (2 * r + 4)%nat (SNew [i] (repeat 1 i))) = Some (ls1 (R ++ [q1; q2]))).
      { cbn [lstep]. replace (2 * r + 4)%nat with (S (S (S (S (2 * r))))) by lia. rewrite ls1_nth, (nth_app_1 R q1 q2 []) by lia.
        rewrite fills_of by (rewrite repeat_length; cbn [prod fold_right]; lia). cbn [q2 l_sh l_flow]. unfold same_shape. destruct (list_eq_dec Nat.eq_dec [i] [i]) as [Q|]; [|congruence].
        assert (Y : stuck (FBoth (toward WSame q1) (toward WSame lb)) [i] (row_major [i]) = false).
        { cbn [toward q1 lb l_rg l_sh l_flow stuck]. destruct (list_eq_dec Nat.eq_dec [i] [i]); [reflexivity|congruence]. }
        rewrite Y. reflexivity. }
      cbn [lrun]. rewrite E1, E2, E3. reflexivity.
    Qed.
    Lemma bench1_layout rounds : exists R, length R = (2 * rounds)%nat /\ lrun (bench1_setup i j x a b ++ bench1_rounds N i rounds) [] = Some (ls1 R).
    Proof.
      induction rounds as [|r (R & L & E)].
      - exists []. split; [reflexivity|]. cbn [bench1_rounds]. rewrite app_nil_r. unfold bench1_setup. lay.
        rewrite (fills_of [j] x) by (cbn [prod fold_right]; lia). lay. rewrite (fills_of [i; j] a) by (cbn [prod fold_right]; nia). lay. rewrite (fills_of [i] b) by (cbn [prod fold_right]; lia). reflexivity.
      - exists (R ++ [q1; q2]). split; [rewrite app_length, L; cbn; lia|]. cbn [bench1_rounds]. rewrite app_assoc, lrun_app, E, lrun_app, bench1_step_layout by exact L. reflexivity.
    Qed.

    Lemma seed_ones1 o : in_range o [i] -> seed o = 1.
    Proof. intros R. apply in_range1 in R as (k & -> & I). unfold seed. apply nth_repeat_in. cbn. lia. Qed.
    Lemma y1_at d o : o < i -> snd (s_val y d [o]) = total N (map (fun t => d O [o; t] * xv [t]) (seq 0 j)) + d 1%nat [o].
    Proof.
      intros R. cbn [y s_val p1]. rewrite !(bidx_same [i] [o]) by (repeat constructor; exact R). cbn [dual nadd snd]. f_equal. unfold m_matvec. cbn [nth].
      rewrite dual_total_snd, map_map. apply (total_ext N). intros t _. cbn [dual nmul fst snd]. ring.
    Qed.
    Lemma bench1_gradients : (forall r t, r < i -> t < j -> vjp N y seed O [r; t] = xv [t]) /\ (forall r, r < i -> vjp N y seed 1%nat [r] = 1).
    Proof.
      split.
      - intros r t R TT. unfold vjp. cbn [y s_shape].
        rewrite <- (inner_unit N inv F [i] (fun _ => xv [t]) [r]) by (repeat constructor; exact R). apply (inner_pointwise N).
        intros o O. rewrite seed_ones1 by exact O. apply in_range1 in O as (k & -> & I). rewrite y1_at by exact I. unfold unit_pert at 2. cbn [Nat.eqb andb].
        transitivity (total N (map (fun t' => if Nat.eq_dec t' t then xv [t'] * (if list_eq_dec Nat.eq_dec [k] [r] then 1 else 0) else 0) (seq 0 j))).
        + transitivity (total N (map (fun t' => unit_pert N O [r; t] O [k; t'] * xv [t']) (seq 0 j))); [ring|]. apply (total_ext N). intros t' _. unfold unit_pert. cbn [Nat.eqb andb].
          destruct (list_eq_dec Nat.eq_dec [k; t'] [r; t]) as [Q|Q], (Nat.eq_dec t' t) as [Q'|Q'], (list_eq_dec Nat.eq_dec [k] [r]) as [Q2|Q2]; try congruence; ring.
        + rewrite (total_single N inv F Nat.eq_dec (fun t' => xv [t'] * (if list_eq_dec Nat.eq_dec [k] [r] then 1 else 0))); [reflexivity|apply seq_NoDup|apply in_seq; lia].
      - intros r R. unfold vjp. cbn [y s_shape].
        rewrite <- (inner_unit N inv F [i] (fun _ => 1) [r]) by (repeat constructor; exact R). apply (inner_pointwise N).
        intros o O. rewrite seed_ones1 by exact O. apply in_range1 in O as (k & -> & I). rewrite y1_at by exact I.
        rewrite (total_ext N _ (fun _ => 0)), (total_zero N inv F); [|intros t' _; unfold unit_pert; cbn [Nat.eqb andb]; ring].
        unfold unit_pert. cbn [Nat.eqb andb]. destruct (list_eq_dec Nat.eq_dec [k] [r]); ring.
    Qed.

    Lemma bench1_done rounds : let q := bench1_setup i j x a b ++ bench1_rounds N i rounds in
      (exists st, run N q g0 = Ok st /\ has_gradient st 1 [i; j] (fun _ => 0) /\ has_gradient st 2 [i] (fun _ => 0)) /\
      (exists st, run N (q ++ bench1_step N i rounds) g0 = Ok st /\
         has_gradient st 1 [i; j] (fun o => xv [nth 1 o O]) /\ has_gradient st 2 [i] (fun _ => 1)).
    Proof.
      intros q. destruct (bench1_machine rounds) as (AD & R & G & E & LR & TH & Z). destruct (bench1_layout rounds) as (R' & LR' & EL). fold q in AD, E, EL. split.
      - assert (L : lrun q [] <> None) by congruence. destruct (runs q AD L) as [st RN]. exists st. split; [exact RN|]. split.
        + apply (has_gradient_ext st 1%nat [i; j] (s_G (srun N q (s0 N)) O)); [intros o O; rewrite E; apply Z; lia|].
          apply (has_gradient_of q 1%nat A O%nat AD L); [rewrite E; reflexivity|reflexivity|exact RN].
        + apply (has_gradient_ext st 2%nat [i] (s_G (srun N q (s0 N)) 1%nat)); [intros o O; rewrite E; apply Z; lia|].
          apply (has_gradient_of q 2%nat B 1%nat AD L); [rewrite E; reflexivity|reflexivity|exact RN].
      - destruct (bench1_steps rounds R G LR TH) as [A1 E1]. destruct bench1_gradients as [G1 G2].
        assert (AD' : admissible N (q ++ bench1_step N i rounds) (s0 N)) by (rewrite admissible_app, E; auto).
        assert (E' : srun N (q ++ bench1_step N i rounds) (s0 N) = st1 (R ++ [p1; y]) (fun k o => G k o + vjp N y seed k o)) by (rewrite srun_app, E; exact E1).
        assert (L : lrun (q ++ bench1_step N i rounds) [] <> None) by (rewrite lrun_app, EL, bench1_step_layout by exact LR'; discriminate).
        destruct (runs _ AD' L) as [st RN]. exists st. split; [exact RN|]. split.
        + apply (has_gradient_ext st 1%nat [i; j] (s_G (srun N (q ++ bench1_step N i rounds) (s0 N)) O)).
          { intros o O. rewrite E'. cbn [st1 s_G]. rewrite Z by lia. apply in_range2 in O as (r & t & -> & Hr & Ht). cbn [nth]. rewrite G1 by assumption. ring. }
          apply (has_gradient_of _ 1%nat A O%nat AD' L); [rewrite E'; reflexivity|reflexivity|exact RN].
        + apply (has_gradient_ext st 2%nat [i] (s_G (srun N (q ++ bench1_step N i rounds) (s0 N)) 1%nat)).
          { intros o O. rewrite E'. cbn [st1 s_G]. rewrite Z by lia. apply in_range1 in O as (r & -> & Hr). rewrite G2 by assumption. ring. }
          apply (has_gradient_of _ 2%nat B 1%nat AD' L); [rewrite E'; reflexivity|reflexivity|exact RN].
    Qed.
  End Bench1.
End Train.

(** ** C86: the example programs have these gradients, for all sizes and data *)
(** README.md: whatever the size, the gradient of a is c + e everywhere, and that of b is zero:
    each entry of b divides and multiplies the same column.  Only invertible entries of b are
    needed. *)
Theorem C86_readme : forall (T : Type) (N : num T) inv, is_field N inv -> forall m n a b c e,
  m <> 0 -> n <> 0 -> length a = m * n -> length b = n -> (forall j, j < n -> nmul N (nth j b (n0 N)) (inv (nth j b (n0 N))) = n1 N) ->
  exists st, run N (readme m n a b c e) g0 = Ok st /\
    has_gradient st 0 [m; n] (fun _ => nadd N c e) /\ has_gradient st 1 [n] (fun _ => n0 N).
Proof. intros T N inv F m n a b c e Pm Pn La Lb Ib. exact (readme_done N inv F m n a b c e La Lb Pm Pn Ib). Qed.
Print Assumptions C86_readme.

(** backward0: after any number of rounds the gradients are zero, and in the middle of the next
    one (before zero_gradient) they are b/(c+1), a/(c+1) and -ab/(c+1)^2. *)
Theorem C86_backward0 : forall (T : Type) (N : num T) inv, is_field N inv -> forall n a b c rounds,
  n <> 0 -> length a = n -> length b = n -> length c = n ->
  let q := bench0_setup n a b c ++ bench0_rounds N n rounds in
  let a' := elem N [n] a in let b' := elem N [n] b in let c' := fun o => nadd N (elem N [n] c o) (n1 N) in
  (exists st, run N q g0 = Ok st /\
    has_gradient st 0 [n] (fun _ => n0 N) /\ has_gradient st 1 [n] (fun _ => n0 N) /\ has_gradient st 2 [n] (fun _ => n0 N)) /\
  (exists st, run N (q ++ bench0_step N n rounds) g0 = Ok st /\
    has_gradient st 0 [n] (fun o => ndiv N (b' o) (c' o)) /\ has_gradient st 1 [n] (fun o => ndiv N (a' o) (c' o)) /\
    has_gradient st 2 [n] (fun o => nneg N (ndiv N (nmul N (a' o) (b' o)) (nmul N (c' o) (c' o))))).
Proof. intros T N inv F n a b c rounds Pn La Lb Lc. exact (bench0_done N inv F n a b c La Lb Lc Pn rounds). Qed.
Print Assumptions C86_backward0.

(** backward1: row by row the gradient of a is x, and that of b is one. *)
Theorem C86_backward1 : forall (T : Type) (N : num T) inv, is_field N inv -> forall i j x a b rounds,
  i <> 0 -> j <> 0 -> length x = j -> length a = i * j -> length b = i ->
  let q := bench1_setup i j x a b ++ bench1_rounds N i rounds in
  (exists st, run N q g0 = Ok st /\ has_gradient st 1 [i; j] (fun _ => n0 N) /\ has_gradient st 2 [i] (fun _ => n0 N)) /\
  (exists st, run N (q ++ bench1_step N i rounds) g0 = Ok st /\
    has_gradient st 1 [i; j] (fun o => elem N [j] x [nth 1 o 0]) /\ has_gradient st 2 [i] (fun _ => n1 N)).
Proof. intros T N inv F i j x a b rounds Pi Pj Lx La Lb. exact (bench1_done N inv F i j x a b Lx La Lb Pi Pj rounds). Qed.
Print Assumptions C86_backward1.

(** the numbers of the README itself, run by the engine: 15 everywhere and 0 *)
Definition c86 (z : Z) (d : positive) : Qc := Q2Qc (z # d).
Definition p86 : list (instr Qc) :=
  readme 2 2 [c86 15 2; c86 12 1; c86 5 1; c86 25 4] [c86 1 2; c86 (-2) 1] (c86 10 1) (c86 5 1).
Definition q86 (r : res (list Qc)) : res (list Q) := match r with Ok l => Ok (map this l) | Panic => Panic | Oob => Oob end.
Example C86_ex : q86 (grad_of QN p86 0) = Ok [15; 15; 15; 15]%Q /\ q86 (grad_of QN p86 1) = Ok [0; 0]%Q.
Proof. vm_compute. split; reflexivity. Qed.
Example C86_rounds : let q := bench0_setup 2 [c86 3 1; c86 5 1] [c86 2 1; c86 7 1] [c86 1 1; c86 4 1] ++ bench0_rounds QN 2 3 in
  q86 (grad_of QN q 2) = Ok [0; 0]%Q /\ q86 (grad_of QN (q ++ bench0_step QN 2 3) 2) = Ok [-3 # 2; -7 # 5]%Q.
Proof. vm_compute. split; reflexivity. Qed.
