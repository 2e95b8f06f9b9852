(** PropsWord.v: sizes and offsets on machine words (C59). *)
From Coq Require Import List Arith Lia Bool ZArith.
From Verif Require Import Base Spec Layout SpecFacts LayoutFacts Views ViewsFacts ViewsFacts2 Kernels Access HeapFacts KernelFacts OpFacts
  AccessFacts Chain ChainFacts PropsViews PropsOps Word.
Import ListNotations.
Open Scope res_scope.

Lemma word_ok W bld x : x < W -> word W bld x = Ok x.
Proof. intros L. destruct bld; cbn [word]; [now rewrite (proj2 (Nat.ltb_lt _ _) L)|now rewrite Nat.mod_small]. Qed.

Lemma wprod_panic W sh : fold_left (fun acc n => x <- acc ;; word W Checked (x * n)) sh Panic = Panic.
Proof. induction sh; [reflexivity|]. exact IHsh. Qed.

Lemma wprod_cons W bld p n sh : wprod_from W bld p (n :: sh) = (x <- word W bld (p * n) ;; wprod_from W bld x sh).
Proof.
  unfold wprod_from. cbn [fold_left bind]. destruct (word W bld (p * n)) eqn:E; [reflexivity| |destruct bld; cbn [word] in E; [destruct (p * n <? W)|]; discriminate].
  cbn [bind]. destruct bld; [apply wprod_panic|discriminate].
Qed.

Lemma wprod_from_ok W bld sh : forall p, 0 < prod sh -> p * prod sh < W -> wprod_from W bld p sh = Ok (p * prod sh).
Proof.
  induction sh as [|n sh IH]; intros p P L.
  - cbn. do 2 f_equal. lia.
  - rewrite wprod_cons. rewrite prod_cons in *. assert (1 <= prod sh) by nia. assert (1 <= n) by nia.
    rewrite word_ok by nia. cbn [bind]. rewrite IH by nia. f_equal. lia.
Qed.

(** a checked product that returns is exact *)
Lemma wprod_checked_exact W sh : forall p v, wprod_from W Checked p sh = Ok v -> v = p * prod sh /\ (sh <> [] -> v < W).
Proof.
  induction sh as [|n sh IH]; intros p v E.
  - cbn in E. injection E as <-. split; [cbn; lia|congruence].
  - rewrite wprod_cons in E. cbn [word] in E. destruct (Nat.ltb_spec (p * n) W) as [L|]; [|discriminate]. cbn [bind] in E.
    apply (IH (p * n)) in E as [-> H]. rewrite prod_cons. split; [lia|]. intros _. destruct sh; [cbn; lia|]. apply H. congruence.
Qed.

Lemma wprod_checked_res W sh : forall p, wprod_from W Checked p sh = Panic \/ exists v, wprod_from W Checked p sh = Ok v.
Proof.
  induction sh as [|n sh IH]; intros p; [right; eexists; reflexivity|]. rewrite wprod_cons. cbn [word].
  destruct (p * n <? W); [apply IH|]. now left.
Qed.

Lemma mod_mul_l a b W : W <> 0 -> (a mod W * b) mod W = (a * b) mod W.
Proof. intros N. now apply Nat.mul_mod_idemp_l. Qed.

Lemma wprod_wrapping W sh : W <> 0 -> sh <> [] -> forall p, wprod_from W Wrapping p sh = Ok ((p * prod sh) mod W).
Proof.
  intros N NE. induction sh as [|n sh IH]; [congruence|]. intros p. rewrite wprod_cons. cbn [word bind]. destruct sh as [|m sh].
  - unfold wprod_from. cbn [fold_left]. rewrite prod_cons. change (prod []) with 1. do 2 f_equal. lia.
  - rewrite IH by discriminate.
    rewrite mod_mul_l by exact N. rewrite (prod_cons n). do 2 f_equal. lia.
Qed.

Lemma wstrides_ok W bld sh : forall acc, 0 < prod sh -> acc < W -> acc * prod sh < W -> wstrides W bld acc sh = Ok (reshape_strides acc sh).
Proof.
  induction sh as [|n sh IH]; intros acc P A L; [reflexivity|]. rewrite prod_cons in P, L. cbn [wstrides reshape_strides].
  assert (1 <= n) by nia. assert (acc * prod sh <= acc * (n * prod sh)) by nia.
  rewrite IH by (try exact A; nia). cbn [bind].
  assert (Q : snd (reshape_strides acc sh) = acc * prod sh).
  { clear. induction sh as [|m sh IH]; [cbn; lia|]. cbn [reshape_strides]. destruct (reshape_strides acc sh) as [st p]. cbn [snd] in *. rewrite prod_cons. lia. }
  destruct (reshape_strides acc sh) as [st p]. cbn [fst snd] in *. rewrite word_ok by nia. reflexivity.
Qed.

Lemma reshape_strides_1 sh : reshape_strides 1 sh = stride_from_shape_go sh.
Proof. induction sh as [|n sh IH]; [reflexivity|]. cbn [reshape_strides stride_from_shape_go]. now rewrite IH. Qed.

Lemma full_ok T W bld (h : heap T) x sh : 0 < prod sh -> prod sh < W -> wfull W bld h x sh = nd_full h x sh.
Proof.
  intros P L. unfold wfull, nd_full, wprod. rewrite wprod_from_ok by lia. rewrite Nat.mul_1_l. cbn [bind].
  apply bind_ext. intros _ _. rewrite wstrides_ok by lia. cbn [bind]. rewrite reshape_strides_1. unfold from_buffer, fresh_arr, stride_from_shape, alloc. reflexivity.
Qed.

Lemma full_zero T (h : heap T) x sh : prod sh = 0 -> nd_full h x sh = Panic.
Proof. intros Z. unfold nd_full. rewrite repeat_length, Z. reflexivity. Qed.

(** ** C59.  With overflow checks, construction behaves as in the nat model, or panics. *)
Theorem C59_full_checked : forall T W (h : heap T) x sh, 1 < W ->
  (prod sh < W -> wfull W Checked h x sh = nd_full h x sh) /\ (W <= prod sh -> wfull W Checked h x sh = Panic).
Proof.
  intros T W h x sh W1. split; intros L.
  - destruct (Nat.eq_dec (prod sh) 0) as [Z|NZ]; [|apply full_ok; lia]. rewrite (full_zero T h x sh Z). unfold wfull, wprod.
    destruct (wprod_checked_res W sh 1) as [-> |(v & E)]; [reflexivity|]. rewrite E. cbn [bind]. apply wprod_checked_exact in E as [-> _].
    rewrite repeat_length, Z. reflexivity.
  - unfold wfull, wprod. destruct (wprod_checked_res W sh 1) as [-> |(v & E)]; [reflexivity|]. apply wprod_checked_exact in E as [-> E].
    destruct sh as [|n sh]; [cbn in L; lia|]. specialize (E ltac:(discriminate)). lia.
Qed.
Print Assumptions C59_full_checked.

(** without overflow checks this needs the number of elements to be a word *)
Theorem C59_full_release_partial : forall T W (h : heap T) x sh, 1 < W ->
  prod sh < W -> wfull W Wrapping h x sh = nd_full h x sh.
Proof.
  intros T W h x sh W1 L. destruct (Nat.eq_dec (prod sh) 0) as [Z|NZ]; [|apply full_ok; lia]. rewrite (full_zero T h x sh Z). unfold wfull, wprod.
  destruct sh as [|n sh]; [cbn in Z; lia|]. rewrite wprod_wrapping by (try discriminate; lia). rewrite Z, Nat.mul_0_r, Nat.mod_0_l by lia. reflexivity.
Qed.
Print Assumptions C59_full_release_partial.

(** ** Reachable arrays fit *)
Lemma chain_size b n a : chain b n false a -> 0 < prod (a_shape a) <= n.
Proof.
  intros C. pose proof (chain_inv _ _ _ _ C) as I. destruct (i_nb _ _ _ _ I eq_refl) as (P & _ & D & _). split; [now apply pos_prod|].
  rewrite <- indices_length, <- (map_length (fun idx => a_off a + dot idx (a_stride a))), <- (seq_length n 0). apply NoDup_incl_length.
  - assert (IM : forall l, (forall i, In i l -> in_range i (a_shape a)) -> NoDup l -> NoDup (map (fun idx => a_off a + dot idx (a_stride a)) l)).
    { induction l as [|i l IH]; intros H ND; [constructor|]. inversion ND; subst. cbn [map]. constructor.
      - intros J. apply in_map_iff in J as (j & E & J). assert (j = i); [|congruence]. apply D; [apply H; now right|apply H; now left|lia].
      - apply IH; [|assumption]. intros j J. apply H. now right. }
    apply IM; [|apply NoDup_indices]. intros i J. now apply in_indices.
  - intros o J. apply in_map_iff in J as (idx & <- & J). apply in_indices in J. apply (i_in _ _ _ _ I) in J. apply in_seq. lia.
Qed.

Lemma woffset_ok W bld : forall idx st acc, acc + dot idx st < W -> woffset_from W bld acc idx st = Ok (acc + dot idx st).
Proof.
  induction idx as [|i idx IH]; intros [|s st] acc L; cbn [woffset_from dot] in *; try (f_equal; lia).
  rewrite word_ok by lia. cbn [bind]. rewrite word_ok by lia. cbn [bind]. rewrite IH by lia. f_equal. lia.
Qed.

Lemma axis_fits sh : forall st k n, length st = length sh -> pos sh ->
  (forall idx, in_range idx sh -> dot idx st < n) -> k < length sh -> (nth k sh 0 - 1) * nth k st 0 < n.
Proof.
  induction sh as [|d sh IH]; intros [|s st] k n L P H K; cbn [length] in *; try lia. inversion P; subst. destruct k as [|k]; cbn [nth].
  - specialize (H ((d - 1) :: repeat 0 (length sh))). cbn [dot] in H.
    assert (R : in_range (d - 1 :: repeat 0 (length sh)) (d :: sh)); [|specialize (H R); lia].
    constructor; [lia|]. clear - H3. induction H3; cbn [length repeat]; constructor; auto.
  - apply (IH st k n); [lia|assumption| |lia]. intros idx R. specialize (H (0 :: idx)). cbn [dot] in H. apply H. constructor; [lia|exact R].
Qed.

(** in an allocation of at most half the address space (Rust allows no larger one), with
    strides that are words: size, every offset of an element, and every product of an axis
    length and its stride are computed exactly in both builds *)
Theorem C59_reachable : forall W bld b n a, chain b n false a -> 2 * n <= W -> Forall (fun s => s < W) (a_stride a) ->
  wprod W bld (a_shape a) = Ok (prod (a_shape a)) /\
  (forall idx, in_range idx (a_shape a) -> woffset_from W bld 0 idx (a_stride a) = Ok (dot idx (a_stride a))) /\
  (forall k, k < length (a_shape a) -> word W bld (nth k (a_shape a) 0 * nth k (a_stride a) 0) = Ok (nth k (a_shape a) 0 * nth k (a_stride a) 0)).
Proof.
  intros W bld b n a C LW FS. pose proof (chain_size _ _ _ C) as [P LE]. pose proof (chain_inv _ _ _ _ C) as I.
  destruct (i_nb _ _ _ _ I eq_refl) as (PS & _).
  assert (HD : forall idx, in_range idx (a_shape a) -> dot idx (a_stride a) < n) by (intros idx R; pose proof (i_in _ _ _ _ I idx R); lia).
  repeat split.
  - unfold wprod. rewrite wprod_from_ok by lia. f_equal. lia.
  - intros idx R. rewrite woffset_ok; [reflexivity|]. specialize (HD idx R). lia.
  - intros k K. apply word_ok. pose proof (axis_fits (a_shape a) (a_stride a) k n (i_wf _ _ _ _ I) PS HD K) as H.
    assert (S : nth k (a_stride a) 0 < W). { apply (proj1 (Forall_forall _ _) FS). apply nth_In. rewrite (i_wf _ _ _ _ I). exact K. }
    assert (D : 0 < nth k (a_shape a) 0). { apply (proj1 (Forall_forall _ _) PS). now apply nth_In. }
    destruct (Nat.eq_dec (nth k (a_shape a) 0) 1) as [-> |]; nia.
Qed.
Print Assumptions C59_reachable.

Theorem C59_index : forall T W bld (h : heap T) b n a idx, chain b n false a -> 2 * n <= W ->
  in_range idx (a_shape a) -> windex W bld h a idx = nd_index h a idx.
Proof.
  intros T W bld h b n a idx C LW R. unfold windex, nd_index. apply bind_ext. intros _ _. pose proof (chain_inv _ _ _ _ C) as I.
  pose proof (i_in _ _ _ _ I idx R). rewrite woffset_ok by lia. cbn [bind]. reflexivity.
Qed.
Print Assumptions C59_index.

Lemma guard_true b u : guard b = Ok u -> b = true.
Proof. destruct b; [reflexivity|discriminate]. Qed.

Lemma csub_1 x d : csub x 1 = Ok d -> x = S d.
Proof. unfold csub. destruct x; [discriminate|]. cbn. intros E. injection E as <-. lia. Qed.

Lemma vget_nth (l : list nat) k x : vget l k = Ok x -> nth k l 0 = x.
Proof. unfold vget. destruct (nth_error l k) eqn:E; [|discriminate]. intros H. injection H as <-. now apply nth_error_nth. Qed.

Lemma chain_uniform b n a d acc : chain b n false a -> f_unif (a_fl a) = true -> csub (length (a_shape a)) 1 = Ok d -> vget (a_stride a) d = Ok acc ->
  acc * (prod (a_shape a) - 1) < n.
Proof.
  intros C U ED EV. pose proof (chain_inv _ _ _ _ C) as I. destruct (i_nb _ _ _ _ I eq_refl) as (PS & NZ & _).
  destruct (i_fl _ _ _ _ I) as [FU _]. rewrite U in FU. destruct (has_uniform_stride (a_shape a) (a_stride a)) as [u|] eqn:EU; [|discriminate].
  assert (acc = u) as ->.
  { apply vget_nth in EV. apply csub_1 in ED. pose proof (i_wf _ _ _ _ I) as WF. unfold wf in WF. destruct (a_shape a) as [|m sh]; [discriminate|]. destruct (a_stride a) as [|s st]; [discriminate|].
    cbn [length] in *. cbn [has_uniform_stride] in EU. apply has_uniform_go_last in EU; [|lia].
    assert (d = length st) by lia. congruence. }
  assert (Q : prod (a_shape a) - 1 < prod (a_shape a)) by (apply pos_prod in PS; lia).
  destruct (unrank_in_range _ _ Q) as [R K]. pose proof (i_in _ _ _ _ I _ R) as B.
  rewrite (uniform_dot _ _ u _ (eq_sym (i_wf _ _ _ _ I)) (nonzero_no_bcast _ _ (eq_sym (i_wf _ _ _ _ I)) NZ) EU R), K in B. lia.
Qed.

Lemma reshape_ok W bld b n a sh : chain b n false a -> 2 * n <= W -> Forall (fun s => s < W) (a_stride a) ->
  (0 < prod sh < W -> wprod W bld sh = Ok (prod sh)) -> (prod sh < W \/ bld = Checked) -> 0 < prod sh ->
  wreshape W bld a sh = nd_reshape ByRef a sh.
Proof.
  intros C LW FS WP PW P. destruct (C59_reachable W bld b n a C LW FS) as (SZ & _). pose proof (chain_size _ _ _ C) as [PA LE].
  unfold wreshape, nd_reshape. destruct (list_eqb sh (a_shape a)); [reflexivity|]. apply bind_ext. intros u0 U. rewrite SZ. cbn [bind].
  destruct (le_lt_dec W (prod sh)) as [B|B].
  - destruct PW as [| ->]; [lia|]. unfold wprod. rewrite (proj2 (Nat.eqb_neq (prod (a_shape a)) (prod sh))) by lia.
    destruct (wprod_checked_res W sh 1) as [-> |(v & E)]; [reflexivity|]. apply wprod_checked_exact in E as [-> E].
    destruct sh as [|d sh]; [cbn in B; cbn in P; lia|]. specialize (E ltac:(discriminate)). lia.
  - rewrite WP by lia. cbn [bind]. apply bind_ext. intros u1 EG. apply guard_true in EG. apply Nat.eqb_eq in EG. apply guard_true in U.
    apply bind_ext. intros d ED. apply bind_ext. intros acc EV. pose proof (chain_uniform _ _ _ _ _ C U ED EV) as H.
    assert (A : acc < W). { apply vget_nth in EV as <-. apply csub_1 in ED.
      apply (proj1 (Forall_forall _ _) FS). apply nth_In. rewrite (i_wf _ _ _ _ (chain_inv _ _ _ _ C)). lia. }
    rewrite wstrides_ok; [|lia|exact A|destruct (Nat.eq_dec (prod sh) 1) as [-> |]; [lia|nia]]. cbn [bind]. reflexivity.
Qed.

Lemma reshape_zero a sh : 0 < prod (a_shape a) -> prod sh = 0 -> nd_reshape ByRef a sh = Panic.
Proof.
  intros P Z. unfold nd_reshape. destruct (list_eqb sh (a_shape a)) eqn:E; [apply list_eqb_spec in E; subst sh; lia|].
  destruct (guard (f_unif (a_fl a))) eqn:G; [|reflexivity|unfold guard in G; destruct (f_unif (a_fl a)); discriminate]. cbn [bind].
  rewrite (proj2 (Nat.eqb_neq (prod (a_shape a)) (prod sh))) by lia. reflexivity.
Qed.

(** with overflow checks reshape behaves as in the nat model for every requested shape *)
Theorem C59_reshape_checked : forall W b n a sh, chain b n false a -> 2 * n <= W -> Forall (fun s => s < W) (a_stride a) ->
  wreshape W Checked a sh = nd_reshape ByRef a sh.
Proof.
  intros W b n a sh C LW FS. pose proof (chain_size _ _ _ C) as [PA LE]. destruct (Nat.eq_dec (prod sh) 0) as [Z|NZ].
  - rewrite (reshape_zero a sh PA Z). unfold wreshape. destruct (list_eqb sh (a_shape a)) eqn:E; [apply list_eqb_spec in E; subst sh; lia|].
    destruct (guard (f_unif (a_fl a))) eqn:G; [|reflexivity|unfold guard in G; destruct (f_unif (a_fl a)); discriminate]. cbn [bind].
    rewrite (proj1 (C59_reachable W Checked b n a C LW FS)). cbn [bind]. unfold wprod.
    destruct (wprod_checked_res W sh 1) as [-> |(v & EE)]; [reflexivity|]. rewrite EE. apply wprod_checked_exact in EE as [-> _]. cbn [bind].
    rewrite (proj2 (Nat.eqb_neq _ _)) by lia. reflexivity.
  - eapply reshape_ok; eauto; try lia. intros L. unfold wprod. rewrite wprod_from_ok by lia. f_equal. lia.
Qed.
Print Assumptions C59_reshape_checked.

(** without them, for every requested shape whose number of elements is a word *)
Theorem C59_reshape_release_partial : forall W b n a sh, chain b n false a -> 2 * n <= W -> Forall (fun s => s < W) (a_stride a) ->
  prod sh < W -> wreshape W Wrapping a sh = nd_reshape ByRef a sh.
Proof.
  intros W b n a sh C LW FS L. pose proof (chain_size _ _ _ C) as [PA LE]. destruct (Nat.eq_dec (prod sh) 0) as [Z|NZ].
  - rewrite (reshape_zero a sh PA Z). unfold wreshape. destruct (list_eqb sh (a_shape a)) eqn:E; [apply list_eqb_spec in E; subst sh; lia|].
    destruct (guard (f_unif (a_fl a))) eqn:G; [|reflexivity|unfold guard in G; destruct (f_unif (a_fl a)); discriminate]. cbn [bind].
    rewrite (proj1 (C59_reachable W Wrapping b n a C LW FS)). cbn [bind]. unfold wprod. destruct sh as [|d sh]; [cbn in Z; lia|].
    rewrite wprod_wrapping by (try discriminate; lia). rewrite Z, Nat.mul_0_r, Nat.mod_0_l by lia. cbn [bind]. rewrite (proj2 (Nat.eqb_neq _ _)) by lia. reflexivity.
  - eapply reshape_ok; eauto; try lia. intros _. unfold wprod. rewrite wprod_from_ok by lia. f_equal. lia.
Qed.
Print Assumptions C59_reshape_release_partial.

(** ** Release builds.  For words of any even number of bits (4 ^ 32 values on 64-bit machines)
    there are shapes [3; q] with 3 * q = W + 2. *)
Lemma word_third k : 1 <= k -> exists q, 3 * q = 4 ^ k + 2 /\ 2 <= q < 4 ^ k.
Proof.
  induction k as [|k IH]; [lia|]. intros _. rewrite Nat.pow_succ_r'. destruct k as [|k].
  - exists 2. cbn. lia.
  - destruct IH as (q & E & L); [lia|]. exists (4 * q - 2). lia.
Qed.

Lemma wprod_third W q : 3 * q = W + 2 -> 2 <= q < W -> wprod W Wrapping [3; q] = Ok 2.
Proof.
  intros E L. unfold wprod. rewrite wprod_wrapping by (try discriminate; lia). do 2 f_equal.
  rewrite !prod_cons. change (prod []) with 1. replace (1 * (3 * (q * 1))) with (2 + 1 * W) by lia. rewrite Nat.mod_add by lia. apply Nat.mod_small. lia.
Qed.

Lemma wstrides_third W q acc : 3 * q = W + 2 -> 2 <= q < W -> acc = 1 -> exists p, wstrides W Wrapping acc [3; q] = Ok ([q; 1], p).
Proof.
  intros E L ->. cbn [wstrides bind fst snd word]. rewrite (Nat.mod_small (1 * q)) by lia. rewrite Nat.mul_1_l. eexists. reflexivity.
Qed.

(** full allocates two cells for an array of W + 2 elements; reading it leaves the allocation.
    With overflow checks the same call panics. *)
Theorem C59_full_release_refuted : forall T k (x : T), 1 <= k -> exists sh h a, let W := 4 ^ k in
  wfull W Wrapping [] x sh = Ok (h, a) /\ a_shape a = sh /\ prod sh = W + 2 /\ Forall (fun d => d < W) sh /\
  h = [Some [x; x]] /\ in_range [1; 0] (a_shape a) /\ get h a [1; 0] = Oob /\ wfull W Checked [] x sh = Panic.
Proof.
  intros T k x K. destruct (word_third k K) as (q & E & L). set (W := 4 ^ k) in *.
  destruct (wstrides_third W q 1 E L eq_refl) as (p & EP).
  exists [3; q], [Some [x; x]], (mkArr 0 0 2 2 [3; q] [q; 1] fresh_flags). cbn zeta.
  assert (PR : prod [3; q] = W + 2) by (rewrite !prod_cons; change (prod []) with 1; lia).
  split. { unfold wfull. rewrite wprod_third by assumption. cbn [bind repeat length Nat.eqb negb guard]. rewrite EP. reflexivity. }
  split; [reflexivity|]. split; [exact PR|]. split; [repeat constructor; lia|]. split; [reflexivity|].
  split; [cbn [a_shape]; repeat constructor; lia|]. split.
  - unfold get, load. cbn [a_blk a_off a_stride dot nth_error]. destruct q as [|[|q]]; [lia|lia|]. cbn [Nat.add Nat.mul nth_error]. now destruct (q + 0 + 0).
  - apply C59_full_checked; lia.
Qed.
Print Assumptions C59_full_release_refuted.

(** reshape accepts such a shape for an array of two elements *)
Theorem C59_reshape_release_refuted : forall k, 1 <= k -> exists sh r, let W := 4 ^ k in let a := fresh_arr 0 2 [2] in
  chain 0 2 false a /\ wreshape W Wrapping a sh = Ok r /\ a_shape r = sh /\ Forall (fun d => d < W) sh /\
  in_range [1; 0] (a_shape r) /\ (forall T (x y : T), get [Some [x; y]] r [1; 0] = Oob) /\ wreshape W Checked a sh = Panic.
Proof.
  intros k K. destruct (word_third k K) as (q & E & L). set (W := 4 ^ k) in *.
  destruct (wstrides_third W q 1 E L eq_refl) as (p & EP).
  exists [3; q]. eexists. cbn zeta. assert (C : chain 0 2 false (fresh_arr 0 2 [2])) by (apply Ch_new; cbn; lia).
  assert (PR : prod [3; q] = W + 2) by (rewrite !prod_cons; change (prod []) with 1; lia).
  split; [exact C|]. split.
  { unfold wreshape. change (a_shape (fresh_arr 0 2 [2])) with [2]. destruct (list_eqb [3; q] [2]) eqn:EQ; [apply list_eqb_spec in EQ; discriminate|].
    cbn [fresh_arr a_fl fresh_flags f_unif guard bind]. replace (wprod W Wrapping [2]) with (@Ok nat 2); [|symmetry; unfold wprod; rewrite wprod_from_ok; [reflexivity|cbn; lia|cbn; lia]].
    cbn [bind]. rewrite wprod_third by assumption. cbn [bind Nat.eqb guard]. change (csub (length [2]) 1) with (@Ok nat 0). cbn [bind].
    match goal with |- context [vget ?l 0] => change (vget l 0) with (@Ok nat 1) end. cbn [bind]. rewrite EP. cbn [bind]. reflexivity. }
  split; [reflexivity|]. split; [repeat constructor; lia|]. split; [cbn [a_shape]; repeat constructor; lia|]. split.
  - intros T x y. unfold get, load. cbn [a_blk a_off a_stride dot nth_error fst]. destruct q as [|[|q]]; [lia|lia|]. cbn [Nat.add Nat.mul nth_error]. now destruct (q + 0 + 0).
  - assert (W4 : 4 <= W) by (unfold W; destruct k; [lia|]; rewrite Nat.pow_succ_r'; pose proof (Nat.pow_nonzero 4 k); lia).
    rewrite (C59_reshape_checked W 0 2 _ _ C); [|lia|repeat constructor; cbn; lia]. apply (proj1 (proj2 (C05_reshape_partial 0 2 _ ByRef [3; q] C))). cbn [fresh_arr a_shape]. rewrite PR. cbn. lia.
Qed.
Print Assumptions C59_reshape_release_refuted.

(** an index far outside a strided array is accepted and reads its first element *)
Theorem C59_index_release_refuted : forall k, 1 <= k -> exists a i, let W := 4 ^ k in let h := [Some [10; 11; 12; 13]] in
  chain 0 4 false a /\ live h 0 4 /\ a_shape a = [2] /\ ~ in_range [i] (a_shape a) /\ i < W /\
  windex W Wrapping h a [i] = Ok 10 /\ windex W Checked h a [i] = Panic.
Proof.
  intros k K. assert (exists i, 2 * i = 4 ^ k /\ 2 <= i) as (i & E & L).
  { destruct k as [|k]; [lia|]. exists (2 * 4 ^ k). rewrite Nat.pow_succ_r'. pose proof (Nat.pow_nonzero 4 k). lia. }
  destruct (nd_slice (fresh_arr 0 4 [2; 2]) [IFull; IUsize 0]) as [a| |] eqn:ES; [|discriminate..].
  exists a, i. cbn zeta. split. { eapply Ch_slice; [apply (Ch_new 0 4 [2; 2]); cbn; lia| |exact ES]. split; [cbn; lia|repeat constructor]. }
  vm_compute in ES. injection ES as <-. split; [eexists; split; reflexivity|]. split; [reflexivity|]. cbn [a_shape].
  split; [intros R; inversion R; subst; lia|]. split; [lia|]. unfold windex. cbn [a_shape a_stride a_len length Nat.eqb guard bind woffset_from word].
  rewrite (Nat.mul_comm i 2), E. rewrite Nat.mod_same by lia. rewrite (proj2 (Nat.ltb_ge (4 ^ k) (4 ^ k))) by lia. cbn [bind]. rewrite Nat.mod_0_l by lia. split; reflexivity.
Qed.
Print Assumptions C59_index_release_refuted.

(** words of 8 bits and an allocation of 24 cells *)
Example C59_ex : let W := 4 ^ 4 in let a := fresh_arr 0 24 [2; 3; 4] in
  chain 0 24 false a /\ 2 * 24 <= W /\ Forall (fun s => s < W) (a_stride a) /\ prod [4; 6] < W /\ nd_reshape ByRef a [4; 6] <> Panic /\
  bind (wfull W Wrapping [] 7 [3; 86]) (fun p => Ok (a_shape (snd p), fst p)) = Ok ([3; 86], [Some [7; 7]]).
Proof.
  cbn zeta. split; [apply Ch_new; cbn; lia|]. split; [apply Nat.leb_le; reflexivity|]. split; [repeat constructor; apply Nat.ltb_lt; reflexivity|].
  split; [apply Nat.ltb_lt; reflexivity|]. split; [discriminate|]. vm_compute. reflexivity.
Qed.
