(** PropsGrad.v: properties of the differentiation engine and of Tensor (C31-C37, C47).
    Scalars are an abstract field: rounding is not considered.  A commutative ring with
    x / y := 0 also satisfies [is_field], so programs without division are covered over every
    commutative ring. *)
From Coq Require Import List Arith Lia Bool ZArith Permutation QArith Qcanon.
From Verif Require Import Base Spec Layout SpecFacts LayoutFacts Views ViewsFacts ViewsFacts2 ViewsFacts3 ViewsFacts4
  Kernels Access HeapFacts KernelFacts OpFacts AccessFacts Chain ChainFacts Reduce ReduceFacts Einsum EinsumFacts2
  PropsViews PropsOps PropsReduce PropsEinsum SpecGrad Autograd GradMath GradFacts GradFacts2 GradFacts3 GradFacts4 GradFacts5.
Import ListNotations.
Open Scope res_scope.
Close Scope Qc_scope. Close Scope Q_scope. Open Scope nat_scope.

(** ** example scalars *)
Definition ZN : num Z := mkNum 0%Z 1%Z Z.add Z.sub Z.mul (fun _ _ => 0%Z) Z.opp.
Lemma ZN_field : is_field ZN (fun _ => 0%Z).
Proof.
  constructor; cbn; try (intros; ring). constructor; intros; ring.
Qed.
Definition QN : num Qc := mkNum 0%Qc 1%Qc Qcplus Qcminus Qcmult Qcdiv Qcopp.
Lemma QN_field : is_field QN Qcinv.
Proof.
  constructor; cbn; try (intros; ring); try reflexivity.
  - constructor; intros; ring.
  - intros x y. apply Qcinv_mult_distr.
Qed.

(** ** C31 the sum over broadcast axes *)
(** some axis of s is not stretched when s is broadcast to t *)
Definition keeps_axis (s t : list nat) : Prop :=
  exists k, k < length s /\ (nth k s 1 <> 1 \/ nth (length t - length s + k) t 1 = 1).

Lemma keeps_axis_kept s t : pos t -> broadcastable s t -> (keeps_axis s t <-> some_kept s t = true).
Proof.
  intros P [L F2]. unfold keeps_axis, some_kept. rewrite existsb_exists.
  assert (PN : forall k, k < length t -> 0 < nth k t 1) by (intros k K; unfold pos in P; rewrite Forall_forall in P; apply P, nth_In, K).
  split.
  - intros (k & K & H). exists (nth k s 1, nth k (skipn (length t - length s) t) 1). split.
    + rewrite <- combine_nth by (rewrite skipn_length; lia). apply nth_In. rewrite combine_length, skipn_length. lia.
    + cbn [fst snd]. rewrite nth_skipn. destruct H as [H|H]; [apply Nat.eqb_neq in H; now rewrite H|]. rewrite H. apply negb_true_iff, andb_false_r.
  - intros (p & I & H). apply (In_nth _ _ (1, 1)) in I as (k & K & E). rewrite combine_length, skipn_length in K.
    rewrite combine_nth in E by (rewrite skipn_length; lia). subst p. cbn [fst snd] in H. exists k. split; [lia|]. rewrite nth_skipn in H.
    apply negb_true_iff, andb_false_iff in H. destruct H as [H|H]; [left; now apply Nat.eqb_neq|right].
    apply Nat.ltb_ge in H. specialize (PN (length t - length s + k)). lia.
Qed.

Lemma stored_good {T} (h : heap T) b n a v : chain b n false a -> holds h a v -> good h a (a_shape a) v.
Proof. intros C [_ H]. split; [exists b, n; now apply chain_inv|]. auto. Qed.

(** Missing: the refuted case below. *)
Theorem C31_reduce_gradient_partial : forall T (N : num T) inv, is_field N inv ->
  forall (h : heap T) blk n g v s, chain blk n false g -> holds h g v -> length (a_shape g) <= MAX_DIMS -> broadcastable s (a_shape g) ->
  s = a_shape g \/ s = [] \/ keeps_axis s (a_shape g) ->
  exists h' r w, reduce_gradient N h g s = Ok (h', r) /\ extends h h' /\ a_shape r = s /\ holds h' r w /\
    forall d, inner N s w d = inner N (a_shape g) v (fun j => d (bidx s j)).
Proof.
  intros T N inv F h blk n g v s C H MD B K. pose proof (stored_good h _ _ _ _ C H) as G.
  destruct (reduce_gradient_ok N inv F h g s _ v G MD B) as [(_ & N1 & N2 & N3)|(_ & h' & r & E & X & _ & Gr)].
  - destruct K as [K|[K|K]]; try congruence. apply (keeps_axis_kept _ _ (good_pos _ _ _ _ G) B) in K. congruence.
  - exists h', r, (fibre_sum N (a_shape g) (bidx s) v). split; [auto|]. split; [auto|]. split; [now apply (good_shape _ _ _ _ Gr)|].
    split; [now apply (good_holds _ _ _ _ Gr)|]. intros d. symmetry. apply (inner_fibre N inv F). intros j J. now apply (bidx_in s (a_shape g)).
Qed.
Print Assumptions C31_reduce_gradient_partial.
(** the only way to fail *)
Theorem C31_failure_partial : forall T (N : num T) inv, is_field N inv ->
  forall (h : heap T) blk n g v s, chain blk n false g -> holds h g v -> length (a_shape g) <= MAX_DIMS -> broadcastable s (a_shape g) ->
  (reduce_gradient N h g s = Panic <-> s <> a_shape g /\ s <> [] /\ ~ keeps_axis s (a_shape g)) /\ reduce_gradient N h g s <> Oob.
Proof.
  intros T N inv F h blk n g v s C H MD B. pose proof (stored_good h _ _ _ _ C H) as G.
  pose proof (keeps_axis_kept _ _ (good_pos _ _ _ _ G) B) as K.
  destruct (reduce_gradient_ok N inv F h g s _ v G MD B) as [(E & N1 & N2 & N3)|(D & h' & r & E & _)]; rewrite E; (split; [|discriminate]).
  - split; [intros _|auto]. split; [auto|]. split; [auto|]. rewrite K. congruence.
  - split; [discriminate|]. intros (N1 & N2 & N3). rewrite K in N3. destruct D as [D|[D|D]]; congruence.
Qed.
Print Assumptions C31_failure_partial.
(** a gradient of shape 2x3 for an operand of shape 3 *)
Definition exg : heap Z := [Some [1; 2; 3; 10; 20; 30]%Z].
Definition exga : arr := fresh_arr 0 6 [2; 3].
Lemma exga_chain : chain 0 6 false exga.
Proof. apply Ch_new; cbn; lia. Qed.
Example C31_ex : holds exg exga (fun i => nth (rank i [2; 3]) [1; 2; 3; 10; 20; 30]%Z 0%Z) /\ keeps_axis [3] [2; 3] /\
  exists h' r, reduce_gradient ZN exg exga [3] = Ok (h', r) /\ elems h' r = Ok [11; 22; 33]%Z.
Proof.
  split; [|split].
  - split; [reflexivity|]. intros idx R. apply in_range2 in R as (i & j & -> & I & J).
    destruct i as [|[|]]; try lia; destruct j as [|[|[|]]]; try lia; reflexivity.
  - exists 0. cbn. auto.
  - eexists _, _. split; vm_compute; reflexivity.
Qed.
(** a + b for a of shape [1] and b of shape [3]: no gradient for a *)
Theorem C31_all_axes_stretched_refuted : exists h g s, chain 0 3 false g /\ live h 0 3 /\ broadcastable s (a_shape g) /\
  reduce_gradient ZN h g s = Panic.
Proof.
  exists [Some [1; 1; 1]%Z], (fresh_arr 0 3 [3]), [1]. split; [apply Ch_new; cbn; lia|]. split; [eexists; split; reflexivity|].
  split; [split; [cbn; lia|repeat constructor]|]. reflexivity.
Qed.
Print Assumptions C31_all_axes_stretched_refuted.
(** ** C32 the rule of each operator *)
Section Rules.
  Context {T : Type} (N : num T).
  (** two leaves with gradients gx, gy; an incoming gradient g for a result of shape sh *)
  Record setting (h : heap T) (gx gy g : arr) (sx sy sh : list nat) (Gx Gy G : list nat -> T) : Prop := mkSetting {
    st_gx : gx = fresh_arr (a_blk gx) (prod sx) sx; st_hx : holds h gx Gx; st_nx : 0 < prod sx; st_mx : length sx <= MAX_DIMS;
    st_gy : gy = fresh_arr (a_blk gy) (prod sy) sy; st_hy : holds h gy Gy; st_ny : 0 < prod sy; st_my : length sy <= MAX_DIMS;
    st_xy : a_blk gx <> a_blk gy;
    st_g : exists b n, chain b n false g; st_sg : a_shape g = sh; st_hg : holds h g G; st_mg : length sh <= MAX_DIMS;
    st_bx : a_blk g <> a_blk gx; st_by : a_blk g <> a_blk gy }.
  (** an operand of shape s with elements v that is not one of the gradients *)
  Definition operand (h : heap T) (gx gy a : arr) (s : list nat) (v : list nat -> T) : Prop :=
    (exists b n, chain b n false a) /\ a_shape a = s /\ holds h a v /\ a_blk a <> a_blk gx /\ a_blk a <> a_blk gy.
  (** backward of one node adds to the gradients of its operands arrays that pair with the
      perturbations dx, dy like the incoming gradient with the change D dx dy of the result *)
  Definition transposes (h : heap T) (gx gy g : arr) (sx sy sh : list nat) (Gx Gy G : list nat -> T) (nd : gnode T)
      (D : (list nat -> T) -> (list nat -> T) -> list nat -> T) : Prop :=
    exists h' Gx' Gy', bw N [gx; gy] [nd] 2 [] h (RNode 0) g = Ok h' /\ holds h' gx Gx' /\ holds h' gy Gy' /\
      forall dx dy, nadd N (inner N sx Gx' dx) (inner N sy Gy' dy) =
        nadd N (nadd N (inner N sx Gx dx) (inner N sy Gy dy)) (inner N sh G (D dx dy)).
  Definition reducible (s t : list nat) : Prop := s = t \/ s = [] \/ keeps_axis s t.
End Rules.

Section RulesProof.
  Context {T : Type} (N : num T) (inv0 : T -> T).
  Hypothesis F : is_field N inv0.
  Add Ring T_ring6 : (field_ring N inv0 F).
  Variables (h : heap T) (gx gy g : arr) (sx sy sh : list nat) (Gx Gy G : list nat -> T).
  Hypothesis ST : setting h gx gy g sx sy sh Gx Gy G.

  Definition D2 (D : (list nat -> T) -> (list nat -> T) -> list nat -> T) : @pert T -> list nat -> T := fun d => D (d 0) (d 1).

  Lemma fresh_good (a : arr) s v : a = fresh_arr (a_blk a) (prod s) s -> 0 < prod s -> holds h a v -> good h a s v.
  Proof.
    intros E P H. assert (S : a_shape a = s) by (rewrite E; reflexivity). assert (C : chain (a_blk a) (prod s) false a) by (rewrite E; cbn [a_blk fresh_arr]; apply Ch_new; auto).
    pose proof (stored_good h _ _ _ _ C H) as Q. now rewrite S in Q.
  Qed.

  Lemma op_good a s v : operand h gx gy a s v -> sgood [gx; gy] h a s v.
  Proof.
    intros ((b & n & C) & <- & H & B1 & B2). split; [now apply (stored_good h b n)|]. cbn. intros [E|[E|[]]]; congruence.
  Qed.

  Lemma rule_of nd D : node_ok N [gx; gy] [sx; sy] [(sh, D2 D)] h 0 nd sh (D2 D) -> forall u : bool, (u = true -> rmaj g) ->
    calm [nd] 2 (RNode 0) sh u = true -> transposes N h gx gy g sx sy sh Gx Gy G nd D.
  Proof.
    intros NO u U CALM. destruct ST as [gx0 hx nx mx gy0 hy ny my xy (b & n & C) sg hg mg bx by0].
    set (Gs := fun k => match k with 0 => Gx | _ => Gy end).
    assert (LV : lives [gx; gy] [sx; sy] h Gs).
    { split; [reflexivity|]. split; [constructor; [intros [Q|[]]; congruence|constructor; [intros []|constructor]]|].
      intros [|[|k]] a E; try (destruct k; discriminate); injection E as <-; eexists; (split; [reflexivity|]); (split; [assumption|]); (split; [assumption|]);
        cbn [Gs]; now apply fresh_good. }
    assert (SG : sgood [gx; gy] h g sh G) by (apply op_good; repeat split; eauto; apply hg).
    destruct (bw_ok N inv0 F [gx; gy] [sx; sy] [nd] [(sh, D2 D)] eq_refl 2 [] h (RNode 0) sh (D2 D) g G Gs u)
      as [[_ E]|(h' & Gs' & E & _ & LV' & PR)].
    - cbn. lia. - intros k []. - exists (D2 D). split; [reflexivity|auto]. - auto. - auto. - auto.
    - intros m nd' E. destruct m as [|m]; [|destruct m; discriminate]. injection E as <-. exists sh, (D2 D). auto.
    - auto.
    - congruence.
    - exists h', (Gs' 0), (Gs' 1). split; [exact E|]. destruct LV' as (_ & _ & LV').
      destruct (LV' 0 gx eq_refl) as (s0 & Q0 & _ & _ & G0). destruct (LV' 1 gy eq_refl) as (s1 & Q1 & _ & _ & G1).
      split; [now apply (good_holds _ _ _ _ G0)|]. split; [now apply (good_holds _ _ _ _ G1)|]. intros dx dy.
      specialize (PR (fun k => match k with 0 => dx | _ => dy end)). unfold pairing, D2 in PR. cbn [length seq map nth Gs] in PR.
      rewrite !(total_cons N), !(total_nil N) in PR.
      transitivity (nadd N (inner N sx (Gs' 0) dx) (nadd N (inner N sy (Gs' 1) dy) (n0 N))); [ring|]. rewrite PR. ring.
  Qed.

  Lemma red_kept s : reducible s sh -> broadcastable s sh -> list_eqb s sh || (list_eqb s [] || some_kept s sh) = true.
  Proof.
    intros R B. assert (P : pos sh). { destruct ST. destruct st_g0 as (b & n & C). pose proof (good_pos _ _ _ _ (stored_good h _ _ _ _ C st_hg0)) as P. now rewrite st_sg0 in P. }
    destruct R as [->|[->|K]].
    - now rewrite (proj2 (list_eqb_spec sh sh) eq_refl).
    - cbn. apply orb_true_r.
    - apply (keeps_axis_kept _ _ P B) in K. rewrite K, !orb_true_r. reflexivity.
  Qed.
  Lemma calm_leaf k s u : list_eqb s sh || (list_eqb s [] || some_kept s sh) = true -> calm_shape (fun _ _ _ => true) (RLeaf k) sh s u = true.
  Proof. unfold calm_shape. cbn [is_none orb]. destruct (list_eqb s sh); [reflexivity|]. cbn [orb]. intros ->. reflexivity. Qed.
  Lemma leaf_op k s m : nth_error [sx; sy] k = Some s -> length s <= MAX_DIMS -> op1 N [sx; sy] [(sh, m)] 0 (RLeaf k) s (fun d => d k).
  Proof. intros E L. split; [split; auto|]. split; [cbn; lia|auto]. Qed.
  Lemma calm_node (nd : gnode T) u : calm [nd] 2 (RNode 0) sh u =
    match nd with
    | NAdd x y sx sy => calm_shape (calm [nd] 1) x sh sx u && calm_shape (calm [nd] 1) y sh sy u
    | NSub x y sx sy => calm_shape (calm [nd] 1) x sh sx u && calm_shape (calm [nd] 1) y sh sy true
    | NMul x y l r | NDiv x y l r => calm_shape (calm [nd] 1) x sh (a_shape l) true && calm_shape (calm [nd] 1) y sh (a_shape r) true
    | NMulS x s _ | NDivS x s _ | NNeg x s => calm_shape (calm [nd] 1) x sh s true
    | NDot x y l r | NMatVec x y l r | NMatMul x y l r | NBmm x y l r => calm_next (calm [nd] 1) x (a_shape l) true && calm_next (calm [nd] 1) y (a_shape r) true
    | NReshape x s => is_none x || ((list_eqb s sh || (u && negb (list_eqb sh []))) && calm [nd] 1 x s u)
    | NTrans x a1 a2 => calm_next (calm [nd] 1) x (swap_at (axis_of a1 (length sh)) (axis_of a2 (length sh)) sh) false
    end.
  Proof. destruct nd; reflexivity. Qed.
  Lemma calm_shape_leaf (nd : gnode T) k s u : list_eqb s sh || (list_eqb s [] || some_kept s sh) = true -> calm_shape (calm [nd] 1) (RLeaf k) sh s u = true.
  Proof. unfold calm_shape. cbn [is_none orb]. destruct (list_eqb s sh); [reflexivity|]. cbn [orb]. intros ->. reflexivity. Qed.

  Ltac calmed := rewrite ?calm_node; repeat match goal with E : a_shape _ = _ |- _ => rewrite E end; rewrite ?calm_shape_leaf by (apply red_kept; eauto using join_shape_broadcastable_l, join_shape_broadcastable_r, broadcastable_refl); reflexivity.
  Ltac leaf := apply leaf_op; [reflexivity|apply ST].
  Notation goal nd D := (transposes N h gx gy g sx sy sh Gx Gy G nd D).

  Lemma rule_add : join_shape sx sy sh -> reducible sx sh -> reducible sy sh ->
    goal (NAdd (RLeaf 0) (RLeaf 1) sx sy) (fun dx dy i => nadd N (dx (bidx sx i)) (dy (bidx sy i))).
  Proof.
    intros J R1 R2. apply rule_of with (u := false); [|discriminate|calmed].
    exists (fun d => d 0), (fun d => d 1). split; [leaf|]. split; [leaf|]. split; [auto|]. reflexivity.
  Qed.
  Lemma rule_sub : join_shape sx sy sh -> reducible sx sh -> reducible sy sh ->
    goal (NSub (RLeaf 0) (RLeaf 1) sx sy) (fun dx dy i => nsub N (dx (bidx sx i)) (dy (bidx sy i))).
  Proof.
    intros J R1 R2. apply rule_of with (u := false); [|discriminate|calmed].
    exists (fun d => d 0), (fun d => d 1). split; [leaf|]. split; [leaf|]. split; [auto|]. reflexivity.
  Qed.
  Lemma rule_mul l r vx vy : operand h gx gy l sx vx -> operand h gx gy r sy vy -> join_shape sx sy sh -> reducible sx sh -> reducible sy sh ->
    goal (NMul (RLeaf 0) (RLeaf 1) l r) (fun dx dy i => nadd N (nmul N (dx (bidx sx i)) (vy (bidx sy i))) (nmul N (vx (bidx sx i)) (dy (bidx sy i)))).
  Proof.
    intros OL OR J R1 R2. assert (S1 : a_shape l = sx) by apply OL. assert (S2 : a_shape r = sy) by apply OR.
    apply rule_of with (u := false); [|discriminate|calmed].
    exists sx, sy, vx, vy, (fun d => d 0), (fun d => d 1). split; [leaf|]. split; [leaf|]. split; [auto|]. split; [now apply op_good|]. split; [now apply op_good|]. reflexivity.
  Qed.
  Lemma rule_div l r vx vy : operand h gx gy l sx vx -> operand h gx gy r sy vy -> join_shape sx sy sh -> reducible sx sh -> reducible sy sh ->
    goal (NDiv (RLeaf 0) (RLeaf 1) l r) (fun dx dy i => nsub N (ndiv N (dx (bidx sx i)) (vy (bidx sy i)))
      (ndiv N (nmul N (vx (bidx sx i)) (dy (bidx sy i))) (nmul N (vy (bidx sy i)) (vy (bidx sy i))))).
  Proof.
    intros OL OR J R1 R2. assert (S1 : a_shape l = sx) by apply OL. assert (S2 : a_shape r = sy) by apply OR.
    apply rule_of with (u := false); [|discriminate|calmed].
    exists sx, sy, vx, vy, (fun d => d 0), (fun d => d 1). split; [leaf|]. split; [leaf|]. split; [auto|]. split; [now apply op_good|]. split; [now apply op_good|]. reflexivity.
  Qed.
  (** the same with only the divisor tracked (the engine then uses another formula) *)
  Lemma rule_div_r l r vx vy : operand h gx gy l sx vx -> operand h gx gy r sy vy -> join_shape sx sy sh -> reducible sy sh ->
    goal (NDiv RNone (RLeaf 1) l r) (fun dx dy i => nneg N
      (ndiv N (nmul N (vx (bidx sx i)) (dy (bidx sy i))) (nmul N (vy (bidx sy i)) (vy (bidx sy i))))).
  Proof.
    intros OL OR J R2. assert (S1 : a_shape l = sx) by apply OL. assert (S2 : a_shape r = sy) by apply OR.
    apply rule_of with (u := false); [|discriminate|rewrite calm_node, S1, S2; unfold calm_shape at 1; cbn [is_none orb andb]; calmed].
    exists sx, sy, vx, vy, (fun _ _ => n0 N), (fun d => d 1). split; [split; [cbn; auto|split; [cbn; lia|apply ST]]|]. split; [leaf|]. split; [auto|]. split; [now apply op_good|].
    split; [now apply op_good|]. intros d i _. unfold D2. rewrite !(fld_div _ _ F). ring.
  Qed.
  Lemma rule_neg : sx = sh -> goal (NNeg (RLeaf 0) sx) (fun dx _ i => nneg N (dx i)).
  Proof.
    intros E. apply rule_of with (u := false); [|discriminate|]. - exists (fun d => d 0). split; [leaf|]. split; [auto|]. reflexivity.
    - rewrite calm_node. apply calm_shape_leaf. now rewrite (proj2 (list_eqb_spec sx sh) E).
  Qed.
  Lemma rule_mul_scalar c : sx = sh -> goal (NMulS (RLeaf 0) sx c) (fun dx _ i => nmul N (dx i) c).
  Proof.
    intros E. apply rule_of with (u := false); [|discriminate|]. - exists (fun d => d 0). split; [leaf|]. split; [auto|]. reflexivity.
    - rewrite calm_node. apply calm_shape_leaf. now rewrite (proj2 (list_eqb_spec sx sh) E).
  Qed.
  Lemma rule_div_scalar c : sx = sh -> goal (NDivS (RLeaf 0) sx (ndiv N (n1 N) c)) (fun dx _ i => ndiv N (dx i) c).
  Proof.
    intros E. apply rule_of with (u := false); [|discriminate|].
    - exists (fun d => d 0). split; [leaf|]. split; [auto|]. intros d i _. unfold D2. rewrite !(fld_div _ _ F). ring.
    - rewrite calm_node. apply calm_shape_leaf. now rewrite (proj2 (list_eqb_spec sx sh) E).
  Qed.
  Lemma calm_next_leaf (nd : gnode T) k s u : calm_next (calm [nd] 1) (RLeaf k) s u = true. Proof. reflexivity. Qed.
  Lemma rule_dot n l r vx vy : operand h gx gy l sx vx -> operand h gx gy r sy vy -> sx = [n] -> sy = [n] -> sh = [] ->
    goal (NDot (RLeaf 0) (RLeaf 1) l r) (fun dx dy _ => total N (map (fun k => nadd N (nmul N (dx [k]) (vy [k])) (nmul N (vx [k]) (dy [k]))) (seq 0 n))).
  Proof.
    intros OL OR E1 E2 E3. apply rule_of with (u := false); [|discriminate|rewrite calm_node; reflexivity].
    exists n, vx, vy, (fun d => d 0), (fun d => d 1). rewrite <- E1, <- E2 at 1. split; [leaf|]. split; [leaf|]. rewrite <- E1. split; [now apply op_good|].
    rewrite E1, <- E2. split; [now apply op_good|]. split; [auto|]. reflexivity.
  Qed.
  Lemma rule_matvec n k l r vx vy : operand h gx gy l sx vx -> operand h gx gy r sy vy -> sx = [n; k] -> sy = [k] -> sh = [n] ->
    goal (NMatVec (RLeaf 0) (RLeaf 1) l r) (fun dx dy o => let i := nth 0 o 0 in
      total N (map (fun t => nadd N (nmul N (dx [i; t]) (vy [t])) (nmul N (vx [i; t]) (dy [t]))) (seq 0 k))).
  Proof.
    intros OL OR E1 E2 E3. apply rule_of with (u := false); [|discriminate|rewrite calm_node; reflexivity].
    exists n, k, vx, vy, (fun d => d 0), (fun d => d 1). pose proof (leaf_op 0 sx (D2 (fun dx dy o => let i := nth 0 o 0 in
      total N (map (fun t => nadd N (nmul N (dx [i; t]) (vy [t])) (nmul N (vx [i; t]) (dy [t]))) (seq 0 k)))) eq_refl (st_mx _ _ _ _ _ _ _ _ _ _ ST)) as O1.
    pose proof (leaf_op 1 sy (D2 (fun dx dy o => let i := nth 0 o 0 in
      total N (map (fun t => nadd N (nmul N (dx [i; t]) (vy [t])) (nmul N (vx [i; t]) (dy [t]))) (seq 0 k)))) eq_refl (st_my _ _ _ _ _ _ _ _ _ _ ST)) as O2.
    apply op_good in OL, OR. rewrite E1 in O1 at 2. rewrite E2 in O2 at 2. rewrite E1 in OL. rewrite E2 in OR.
    split; [exact O1|]. split; [exact O2|]. split; [auto|]. split; [auto|]. split; [auto|]. reflexivity.
  Qed.
  Lemma rule_matmul n k p l r vx vy : operand h gx gy l sx vx -> operand h gx gy r sy vy -> sx = [n; k] -> sy = [k; p] -> sh = [n; p] ->
    goal (NMatMul (RLeaf 0) (RLeaf 1) l r) (fun dx dy o => let i := nth 0 o 0 in let j := nth 1 o 0 in
      total N (map (fun t => nadd N (nmul N (dx [i; t]) (vy [t; j])) (nmul N (vx [i; t]) (dy [t; j]))) (seq 0 k))).
  Proof.
    intros OL OR E1 E2 E3. apply rule_of with (u := false); [|discriminate|rewrite calm_node; reflexivity].
    exists n, k, p, vx, vy, (fun d => d 0), (fun d => d 1). 
    apply op_good in OL, OR. match goal with |- op1 _ _ [(_, ?D)] _ _ _ _ /\ _ => pose proof (leaf_op 0 sx D eq_refl (st_mx _ _ _ _ _ _ _ _ _ _ ST)) as O1; pose proof (leaf_op 1 sy D eq_refl (st_my _ _ _ _ _ _ _ _ _ _ ST)) as O2 end.
    rewrite E1 in O1 at 2. rewrite E2 in O2 at 2. rewrite E1 in OL. rewrite E2 in OR.
    split; [exact O1|]. split; [exact O2|]. split; [auto|]. split; [auto|]. split; [auto|]. reflexivity.
  Qed.
  Lemma rule_bmm q n k p l r vx vy : operand h gx gy l sx vx -> operand h gx gy r sy vy -> sx = [q; n; k] -> sy = [q; k; p] -> sh = [q; n; p] ->
    goal (NBmm (RLeaf 0) (RLeaf 1) l r) (fun dx dy o => let b := nth 0 o 0 in let i := nth 1 o 0 in let j := nth 2 o 0 in
      total N (map (fun t => nadd N (nmul N (dx [b; i; t]) (vy [b; t; j])) (nmul N (vx [b; i; t]) (dy [b; t; j]))) (seq 0 k))).
  Proof.
    intros OL OR E1 E2 E3. apply rule_of with (u := false); [|discriminate|rewrite calm_node; reflexivity].
    exists q, n, k, p, vx, vy, (fun d => d 0), (fun d => d 1). 
    apply op_good in OL, OR. match goal with |- op1 _ _ [(_, ?D)] _ _ _ _ /\ _ => pose proof (leaf_op 0 sx D eq_refl (st_mx _ _ _ _ _ _ _ _ _ _ ST)) as O1; pose proof (leaf_op 1 sy D eq_refl (st_my _ _ _ _ _ _ _ _ _ _ ST)) as O2 end.
    rewrite E1 in O1 at 2. rewrite E2 in O2 at 2. rewrite E1 in OL. rewrite E2 in OR.
    split; [exact O1|]. split; [exact O2|]. split; [auto|]. split; [auto|]. split; [auto|]. reflexivity.
  Qed.
  (** reshape: the gradient must be row-major and not a scalar *)
  Lemma rule_reshape : prod sx = prod sh -> sx = sh \/ (sh <> [] /\ a_stride g = rm_stride sh) ->
    goal (NReshape (RLeaf 0) sx) (fun dx _ i => dx (unrank (rank i sh) sx)).
  Proof.
    intros P C. assert (NO : node_ok N [gx; gy] [sx; sy] [(sh, D2 (fun dx _ i => dx (unrank (rank i sh) sx)))] h 0 (NReshape (RLeaf 0) sx) sh (D2 (fun dx _ i => dx (unrank (rank i sh) sx)))).
    { exists (fun d => d 0). split; [leaf|]. split; [auto|]. reflexivity. }
    destruct C as [C|[C1 C2]].
    - apply rule_of with (u := false); [auto|discriminate|]. rewrite calm_node. rewrite (proj2 (list_eqb_spec sx sh) C). reflexivity.
    - apply rule_of with (u := true); [auto| |].
      + intros _. unfold rmaj. now rewrite (st_sg _ _ _ _ _ _ _ _ _ _ ST).
      + rewrite calm_node. destruct (list_eqb sh []) eqn:Q; [apply list_eqb_spec in Q; congruence|]. cbn. apply andb_true_iff. split; [apply orb_true_r|reflexivity].
  Qed.
  Lemma rule_transpose a1 a2 : let i := axis_of a1 (length sx) in let j := axis_of a2 (length sx) in
    as_absolute a1 (length sx) = Ok i -> as_absolute a2 (length sx) = Ok j -> i < length sx -> j < length sx -> sh = swap_at i j sx ->
    goal (NTrans (RLeaf 0) a1 a2) (fun dx _ k => dx (swap_at i j k)).
  Proof.
    intros i j A1 A2 L1 L2 E. apply rule_of with (u := false); [|discriminate|rewrite calm_node; reflexivity].
    exists sx, (fun d => d 0). split; [leaf|]. cbv zeta. split; [auto|]. split; [auto|]. split; [auto|]. split; [auto|]. split; [auto|]. reflexivity.
  Qed.
End RulesProof.

(** Missing from the rules marked partial: operands all of whose axes are stretched (C31). *)
Theorem C32_add_partial : forall T (N : num T) inv, is_field N inv ->
  forall (h : heap T) gx gy g sx sy sh Gx Gy G, setting h gx gy g sx sy sh Gx Gy G ->
  join_shape sx sy sh -> reducible sx sh -> reducible sy sh ->
  transposes N h gx gy g sx sy sh Gx Gy G (NAdd (RLeaf 0) (RLeaf 1) sx sy)
    (fun dx dy i => nadd N (dx (bidx sx i)) (dy (bidx sy i))).
Proof. intros T N inv F h gx gy g sx sy sh Gx Gy G ST. exact (rule_add N inv F h gx gy g sx sy sh Gx Gy G ST). Qed.
Print Assumptions C32_add_partial.
Theorem C32_sub_partial : forall T (N : num T) inv, is_field N inv ->
  forall (h : heap T) gx gy g sx sy sh Gx Gy G, setting h gx gy g sx sy sh Gx Gy G ->
  join_shape sx sy sh -> reducible sx sh -> reducible sy sh ->
  transposes N h gx gy g sx sy sh Gx Gy G (NSub (RLeaf 0) (RLeaf 1) sx sy)
    (fun dx dy i => nsub N (dx (bidx sx i)) (dy (bidx sy i))).
Proof. intros T N inv F h gx gy g sx sy sh Gx Gy G ST. exact (rule_sub N inv F h gx gy g sx sy sh Gx Gy G ST). Qed.
Print Assumptions C32_sub_partial.
Theorem C32_mul_partial : forall T (N : num T) inv, is_field N inv ->
  forall (h : heap T) gx gy g sx sy sh Gx Gy G, setting h gx gy g sx sy sh Gx Gy G ->
  forall l r vx vy, operand h gx gy l sx vx -> operand h gx gy r sy vy ->
  join_shape sx sy sh -> reducible sx sh -> reducible sy sh ->
  transposes N h gx gy g sx sy sh Gx Gy G (NMul (RLeaf 0) (RLeaf 1) l r)
    (fun dx dy i => nadd N (nmul N (dx (bidx sx i)) (vy (bidx sy i))) (nmul N (vx (bidx sx i)) (dy (bidx sy i)))).
Proof. intros T N inv F h gx gy g sx sy sh Gx Gy G ST. exact (rule_mul N inv F h gx gy g sx sy sh Gx Gy G ST). Qed.
Print Assumptions C32_mul_partial.
Theorem C32_div_partial : forall T (N : num T) inv, is_field N inv ->
  forall (h : heap T) gx gy g sx sy sh Gx Gy G, setting h gx gy g sx sy sh Gx Gy G ->
  forall l r vx vy, operand h gx gy l sx vx -> operand h gx gy r sy vy ->
  join_shape sx sy sh -> reducible sx sh -> reducible sy sh ->
  transposes N h gx gy g sx sy sh Gx Gy G (NDiv (RLeaf 0) (RLeaf 1) l r)
    (fun dx dy i => nsub N (ndiv N (dx (bidx sx i)) (vy (bidx sy i)))
      (ndiv N (nmul N (vx (bidx sx i)) (dy (bidx sy i))) (nmul N (vy (bidx sy i)) (vy (bidx sy i))))).
Proof. intros T N inv F h gx gy g sx sy sh Gx Gy G ST. exact (rule_div N inv F h gx gy g sx sy sh Gx Gy G ST). Qed.
Print Assumptions C32_div_partial.
(** only the divisor is tracked: the engine uses another formula *)
Theorem C32_div_by_tracked_partial : forall T (N : num T) inv, is_field N inv ->
  forall (h : heap T) gx gy g sx sy sh Gx Gy G, setting h gx gy g sx sy sh Gx Gy G ->
  forall l r vx vy, operand h gx gy l sx vx -> operand h gx gy r sy vy ->
  join_shape sx sy sh -> reducible sy sh ->
  transposes N h gx gy g sx sy sh Gx Gy G (NDiv RNone (RLeaf 1) l r)
    (fun _ dy i => nneg N (ndiv N (nmul N (vx (bidx sx i)) (dy (bidx sy i))) (nmul N (vy (bidx sy i)) (vy (bidx sy i))))).
Proof. intros T N inv F h gx gy g sx sy sh Gx Gy G ST. exact (rule_div_r N inv F h gx gy g sx sy sh Gx Gy G ST). Qed.
Print Assumptions C32_div_by_tracked_partial.
Theorem C32_neg : forall T (N : num T) inv, is_field N inv ->
  forall (h : heap T) gx gy g sx sy sh Gx Gy G, setting h gx gy g sx sy sh Gx Gy G ->
  sx = sh ->
  transposes N h gx gy g sx sy sh Gx Gy G (NNeg (RLeaf 0) sx)
    (fun dx _ i => nneg N (dx i)).
Proof. intros T N inv F h gx gy g sx sy sh Gx Gy G ST. exact (rule_neg N inv F h gx gy g sx sy sh Gx Gy G ST). Qed.
Print Assumptions C32_neg.
Theorem C32_mul_scalar : forall T (N : num T) inv, is_field N inv ->
  forall (h : heap T) gx gy g sx sy sh Gx Gy G, setting h gx gy g sx sy sh Gx Gy G ->
  forall c, sx = sh ->
  transposes N h gx gy g sx sy sh Gx Gy G (NMulS (RLeaf 0) sx c)
    (fun dx _ i => nmul N (dx i) c).
Proof. intros T N inv F h gx gy g sx sy sh Gx Gy G ST. exact (rule_mul_scalar N inv F h gx gy g sx sy sh Gx Gy G ST). Qed.
Print Assumptions C32_mul_scalar.
Theorem C32_div_scalar : forall T (N : num T) inv, is_field N inv ->
  forall (h : heap T) gx gy g sx sy sh Gx Gy G, setting h gx gy g sx sy sh Gx Gy G ->
  forall c, sx = sh ->
  transposes N h gx gy g sx sy sh Gx Gy G (NDivS (RLeaf 0) sx (ndiv N (n1 N) c))
    (fun dx _ i => ndiv N (dx i) c).
Proof. intros T N inv F h gx gy g sx sy sh Gx Gy G ST. exact (rule_div_scalar N inv F h gx gy g sx sy sh Gx Gy G ST). Qed.
Print Assumptions C32_div_scalar.
Theorem C32_dot : forall T (N : num T) inv, is_field N inv ->
  forall (h : heap T) gx gy g sx sy sh Gx Gy G, setting h gx gy g sx sy sh Gx Gy G ->
  forall n l r vx vy, operand h gx gy l sx vx -> operand h gx gy r sy vy -> sx = [n] -> sy = [n] -> sh = [] ->
  transposes N h gx gy g sx sy sh Gx Gy G (NDot (RLeaf 0) (RLeaf 1) l r)
    (fun dx dy _ => total N (map (fun k => nadd N (nmul N (dx [k]) (vy [k])) (nmul N (vx [k]) (dy [k]))) (seq 0 n))).
Proof. intros T N inv F h gx gy g sx sy sh Gx Gy G ST. exact (rule_dot N inv F h gx gy g sx sy sh Gx Gy G ST). Qed.
Print Assumptions C32_dot.
Theorem C32_matrix_vector : forall T (N : num T) inv, is_field N inv ->
  forall (h : heap T) gx gy g sx sy sh Gx Gy G, setting h gx gy g sx sy sh Gx Gy G ->
  forall n k l r vx vy, operand h gx gy l sx vx -> operand h gx gy r sy vy -> sx = [n; k] -> sy = [k] -> sh = [n] ->
  transposes N h gx gy g sx sy sh Gx Gy G (NMatVec (RLeaf 0) (RLeaf 1) l r)
    (fun dx dy o => let i := nth 0 o 0 in
      total N (map (fun t => nadd N (nmul N (dx [i; t]) (vy [t])) (nmul N (vx [i; t]) (dy [t]))) (seq 0 k))).
Proof. intros T N inv F h gx gy g sx sy sh Gx Gy G ST. exact (rule_matvec N inv F h gx gy g sx sy sh Gx Gy G ST). Qed.
Print Assumptions C32_matrix_vector.
Theorem C32_matrix_product : forall T (N : num T) inv, is_field N inv ->
  forall (h : heap T) gx gy g sx sy sh Gx Gy G, setting h gx gy g sx sy sh Gx Gy G ->
  forall n k p l r vx vy, operand h gx gy l sx vx -> operand h gx gy r sy vy ->
  sx = [n; k] -> sy = [k; p] -> sh = [n; p] ->
  transposes N h gx gy g sx sy sh Gx Gy G (NMatMul (RLeaf 0) (RLeaf 1) l r)
    (fun dx dy o => let i := nth 0 o 0 in let j := nth 1 o 0 in
      total N (map (fun t => nadd N (nmul N (dx [i; t]) (vy [t; j])) (nmul N (vx [i; t]) (dy [t; j]))) (seq 0 k))).
Proof. intros T N inv F h gx gy g sx sy sh Gx Gy G ST. exact (rule_matmul N inv F h gx gy g sx sy sh Gx Gy G ST). Qed.
Print Assumptions C32_matrix_product.
Theorem C32_batched_product : forall T (N : num T) inv, is_field N inv ->
  forall (h : heap T) gx gy g sx sy sh Gx Gy G, setting h gx gy g sx sy sh Gx Gy G ->
  forall q n k p l r vx vy, operand h gx gy l sx vx -> operand h gx gy r sy vy ->
  sx = [q; n; k] -> sy = [q; k; p] -> sh = [q; n; p] ->
  transposes N h gx gy g sx sy sh Gx Gy G (NBmm (RLeaf 0) (RLeaf 1) l r)
    (fun dx dy o => let b := nth 0 o 0 in let i := nth 1 o 0 in let j := nth 2 o 0 in
      total N (map (fun t => nadd N (nmul N (dx [b; i; t]) (vy [b; t; j])) (nmul N (vx [b; i; t]) (dy [b; t; j]))) (seq 0 k))).
Proof. intros T N inv F h gx gy g sx sy sh Gx Gy G ST. exact (rule_bmm N inv F h gx gy g sx sy sh Gx Gy G ST). Qed.
Print Assumptions C32_batched_product.
(** Missing: incoming gradients that are not row-major, or scalars (refuted below). *)
Theorem C32_reshape_partial : forall T (N : num T) inv, is_field N inv ->
  forall (h : heap T) gx gy g sx sy sh Gx Gy G, setting h gx gy g sx sy sh Gx Gy G ->
  prod sx = prod sh -> sx = sh \/ (sh <> [] /\ a_stride g = rm_stride sh) ->
  transposes N h gx gy g sx sy sh Gx Gy G (NReshape (RLeaf 0) sx)
    (fun dx _ i => dx (unrank (rank i sh) sx)).
Proof. intros T N inv F h gx gy g sx sy sh Gx Gy G ST. exact (rule_reshape N inv F h gx gy g sx sy sh Gx Gy G ST). Qed.
Print Assumptions C32_reshape_partial.
Theorem C32_transpose : forall T (N : num T) inv, is_field N inv ->
  forall (h : heap T) gx gy g sx sy sh Gx Gy G, setting h gx gy g sx sy sh Gx Gy G ->
  forall a1 a2, let i := axis_of a1 (length sx) in let j := axis_of a2 (length sx) in
  as_absolute a1 (length sx) = Ok i -> as_absolute a2 (length sx) = Ok j -> i < length sx -> j < length sx -> sh = swap_at i j sx ->
  transposes N h gx gy g sx sy sh Gx Gy G (NTrans (RLeaf 0) a1 a2)
    (fun dx _ k => dx (swap_at i j k)).
Proof. intros T N inv F h gx gy g sx sy sh Gx Gy G ST. exact (rule_transpose N inv F h gx gy g sx sy sh Gx Gy G ST). Qed.
Print Assumptions C32_transpose.
(** x of shape 2x3 times y of shape 3 *)
Definition exb3 : heap Z := [Some [0; 0; 0; 0; 0; 0]%Z; Some [5; 5; 5]%Z; Some [1; 2; 3; 4; 5; 6]%Z; Some [1; 10; 100]%Z; Some [1; 1; 1; 2; 2; 2]%Z].
Example C32_ex : exists Gx Gy G vx vy,
  setting exb3 (fresh_arr 0 6 [2; 3]) (fresh_arr 1 3 [3]) (fresh_arr 4 6 [2; 3]) [2; 3] [3] [2; 3] Gx Gy G /\
  operand exb3 (fresh_arr 0 6 [2; 3]) (fresh_arr 1 3 [3]) (fresh_arr 2 6 [2; 3]) [2; 3] vx /\
  operand exb3 (fresh_arr 0 6 [2; 3]) (fresh_arr 1 3 [3]) (fresh_arr 3 3 [3]) [3] vy /\
  join_shape [2; 3] [3] [2; 3] /\ reducible [2; 3] [2; 3] /\ reducible [3] [2; 3] /\
  exists h', bw ZN [fresh_arr 0 6 [2; 3]; fresh_arr 1 3 [3]] [NMul (RLeaf 0) (RLeaf 1) (fresh_arr 2 6 [2; 3]) (fresh_arr 3 3 [3])] 2 []
    exb3 (RNode 0) (fresh_arr 4 6 [2; 3]) = Ok h' /\
    elems h' (fresh_arr 0 6 [2; 3]) = Ok [1; 10; 100; 2; 20; 200]%Z /\ elems h' (fresh_arr 1 3 [3]) = Ok [14; 17; 20]%Z.
Proof.
  assert (H2 : forall b vs, nth_error exb3 b = Some (Some vs) -> length vs = 6 -> holds exb3 (fresh_arr b 6 [2; 3]) (fun i => nth (rank i [2; 3]) vs 0%Z)).
  { intros b vs E L. split; [reflexivity|]. intros idx R. apply in_range2 in R as (i & j & -> & I & J). unfold get, load. cbn [a_blk a_off fresh_arr]. rewrite E.
    destruct vs as [|v0 [|v1 [|v2 [|v3 [|v4 [|v5 [|]]]]]]]; try discriminate.
    destruct i as [|[|]]; try lia; destruct j as [|[|[|]]]; try lia; reflexivity. }
  assert (H1 : forall b vs, nth_error exb3 b = Some (Some vs) -> length vs = 3 -> holds exb3 (fresh_arr b 3 [3]) (fun i => nth (rank i [3]) vs 0%Z)).
  { intros b vs E L. split; [reflexivity|]. intros idx R. apply in_range1 in R as (j & -> & J). unfold get, load. cbn [a_blk a_off fresh_arr]. rewrite E.
    destruct vs as [|v0 [|v1 [|v2 [|]]]]; try discriminate. destruct j as [|[|[|]]]; try lia; reflexivity. }
  eexists _, _, _, _, _. split; [constructor|split; [|split; [|split; [|split; [|split]]]]].
  - reflexivity. - now apply H2. - cbn; lia. - cbn; unfold MAX_DIMS; lia.
  - reflexivity. - now apply H1. - cbn; lia. - cbn; unfold MAX_DIMS; lia.
  - discriminate. - exists 4, 6. apply Ch_new; cbn; lia. - reflexivity. - now apply H2. - cbn; unfold MAX_DIMS; lia. - discriminate. - discriminate.
  - split; [exists 2, 6; apply Ch_new; cbn; lia|]. split; [reflexivity|]. split; [now apply H2|]. split; discriminate.
  - split; [exists 3, 3; apply Ch_new; cbn; lia|]. split; [reflexivity|]. split; [now apply H1|]. split; discriminate.
  - split; [reflexivity|]. intros k. destruct k as [|[|[|k]]]; cbn; unfold dim_compat; cbn; auto.
  - now left. - right. right. exists 0. cbn. auto.
  - eexists. split; [vm_compute; reflexivity|]. split; reflexivity.
Qed.
(** the gradient of a reshape is rejected when it arrives transposed *)
Theorem C32_reshape_refuted : exists (h : heap Z) gx g, chain 0 6 false gx /\ chain 1 6 false g /\ a_shape g = [3; 2] /\ a_shape gx = [6] /\
  live h 0 6 /\ live h 1 6 /\ bw ZN [gx] [NReshape (RLeaf 0) [6]] 2 [] h (RNode 0) g = Panic.
Proof.
  eexists [Some (repeat 0%Z 6); Some (repeat 1%Z 6)], (fresh_arr 0 6 [6]), _. split; [apply Ch_new; cbn; lia|].
  split; [eapply (Ch_transpose 1 6 false (fresh_arr 1 6 [2; 3]) ByRef 0 1); [apply Ch_new; cbn; lia|reflexivity]|].
  split; [reflexivity|]. split; [reflexivity|]. split; [eexists; split; reflexivity|]. split; [eexists; split; reflexivity|]. reflexivity.
Qed.
Print Assumptions C32_reshape_refuted.
