(** PropsRef.v: programs of array operations behave like the reference machine of SpecRef.v (C63). *)
From Coq Require Import List Arith Lia Bool ZArith.
From Verif Require Import Base Nested PropsNew Spec Layout SpecFacts LayoutFacts Views ViewsFacts ViewsFacts2 ViewsFacts3 Kernels Access HeapFacts KernelFacts OpFacts
  AccessFacts Reduce ReduceFacts Chain ChainFacts Einsum EinsumFacts8 GradFacts PropsViews PropsOps PropsReduce PropsEinsum PropsEinsumView PropsAssign Prog PropsProg SpecRef RefFacts RefFacts2.
Import ListNotations.
Open Scope res_scope.

Section Main.
  Context {T : Type}.
  Variable zero one : T.
  Variable add mul : T -> T -> T.
  Variable eqb : T -> T -> bool.
  Local Notation exec := (exec zero one add mul eqb).
  Local Notation exec_all := (exec_all zero one add mul eqb).
  Local Notation ref := (ref zero one add mul eqb).
  Local Notation ref_all := (ref_all zero one add mul eqb).
  Local Notation supported := (supported zero one add mul).
  Local Notation cmd := (@cmd T).
  Local Notation state := (@state T).

  Lemma sim_put (ex : Prop) (s : state) a bc h' vs : valid (s_heap s) a -> distinct a -> 0 < prod (a_shape a) -> elems h' a = Ok vs -> same_elsewhere (s_heap s) h' (cell_of a) ->
    sim ex (stored s (Ok h')) (Ok (ref_put (abs s) (tab_of (a, bc)) vs)).
  Proof. intros V D P E SE. cbn [stored bind sim]. f_equal. symmetry. eapply abs_array_put; eauto. Qed.

  Lemma exec_ref c s : sound s -> supported c s -> sim (exact c s) (exec c s) (ref c (abs s)).
  Proof.
    intros S (A & RG & X).
    assert (CV : forall k a bc, nth_error (s_env s) k = Some (a, bc) -> valid (s_heap s) a).
    { intros k a bc E. destruct (sound_arr _ _ _ _ S E) as (n & LV & C). eapply chain_valid; eauto. }
    destruct c; cbn [exec SpecRef.ref exact]; cbn [allowed] in A; cbn [ring_ok] in RG; cbn in X.
    - (* new *) destruct A as (V & N & sh & TY & R & L & P). destruct (C04_rectangular_partial T (s_heap s) ks d sh V N TY R L P) as (h' & r & -> & F).
      rewrite (nest_dims_rect _ _ R P). eapply sim_fresh; [exact F|reflexivity].
    - (* full *) destruct (Nat.eqb_spec (prod sh) 0) as [Z|Z].
      + unfold nd_full. rewrite repeat_length, Z. intros _. reflexivity.
      + assert (M : mapM (fun _ : list nat => Ok x) (indices sh) = Ok (repeat x (prod sh))).
        { rewrite <- indices_length. generalize (indices sh). induction l as [|? l IH]; cbn [mapM]; [reflexivity|]. rewrite IH. reflexivity. }
        pose proof (fresh_result_of (s_heap s) sh _ _ ltac:(lia) M) as F. unfold nd_full. rewrite repeat_length. destruct (Nat.eqb_spec (prod sh) 0); [contradiction|]. cbn [negb guard bind].
        unfold from_buffer. rewrite repeat_length. eapply sim_fresh; [exact F|reflexivity].
    - (* view *) apply sim_arr. intros a bc E. cbn [fst snd]. destruct (sound_arr _ _ _ _ S E) as (n & LV & C). pose proof (view_ref _ _ _ _ o C (A a bc E) (X a bc E)) as VR.
      destruct (view_by o a) as [[r|]| |]; cbn [bind]; [rewrite VR; cbn [bind sim]|rewrite VR; reflexivity| |contradiction].
      + unfold abs. cbn [s_heap s_env s_out r_bufs r_env r_out]. now rewrite map_app.
      + intros EX. rewrite VR by exact (EX a bc E). reflexivity.
    - (* binary *) destruct A as (A1 & A2 & NO). apply sim_arr. intros a bc E. apply sim_arr. intros b bc2 E2. pose proof (CV _ _ _ E) as Va. pose proof (CV _ _ _ E2) as Vb.
      destruct (data_abs s a bc Va) as (xs & EX & ->). destruct (data_abs s b bc2 Vb) as (ys & EY & ->). cbn [bind fst tab_of t_shape]. pose proof (join_spec (a_shape a) (a_shape b)) as J.
      destruct (A1 a bc E) as [Da Pa]. destruct (A2 b bc2 E2) as [Db Pb].
      destruct (join (a_shape a) (a_shape b)) as [sh| |]; [|rewrite C12_incompatible_shapes_panic by exact J; intros _; reflexivity|contradiction]. cbn [bind].
      assert (PS : 0 < prod sh) by (apply pos_prod; eapply join_shape_pos; [exact J|apply pos_prod; exact Pa|apply pos_prod; exact Pb]).
      destruct (C12_binary T f zero (s_heap s) a b sh Va Vb J ltac:(destruct J; lia) PS) as [K1 K2].
      pose proof (join_shape_broadcastable_l _ _ _ J) as Ja. pose proof (join_shape_broadcastable_r _ _ _ J) as Jb.
      eapply sim_fop; [exact K1|intros H; now apply K2| |].
      + intros idx R. destruct (valid_get_bidx _ a sh idx Va Ja R) as (x & ->). destruct (valid_get_bidx _ b sh idx Vb Jb R) as (y & ->). apply NO.
      + intros idx R. cbv beta. now rewrite (at_get _ _ _ _ EX (bidx_in_range _ _ _ Ja R)), (at_get _ _ _ _ EY (bidx_in_range _ _ _ Jb R)).
    - (* scalar *) destruct A as (A1 & NO). apply sim_arr. intros a bc E. pose proof (CV _ _ _ E) as V. destruct (data_abs s a bc V) as (xs & EX & ->). cbn [bind fst tab_of t_shape].
      destruct (A1 a bc E) as [D P]. destruct (C13_scalar_op T f zero (s_heap s) a c V D P) as [K1 K2]. rewrite (mapM_bind _ (fun x => f x c) _ _ EX).
      change (sim (exact (CScalarOp f k c) s) (made s (nd_scalar_op f zero (s_heap s) a c)) (ref_make (abs s) (a_shape a) (fun i => x <- get (s_heap s) a i;; f x c))).
      eapply sim_fop; [exact K1|intros H; now apply K2| |reflexivity]. intros idx R. apply get_then; auto.
    - (* unary *) destruct A as (A1 & NO). apply sim_arr. intros a bc E. pose proof (CV _ _ _ E) as V. destruct (data_abs s a bc V) as (xs & EX & ->). cbn [bind fst tab_of t_shape].
      destruct (A1 a bc E) as [D P]. destruct (C13_negation T g zero (s_heap s) a V D P) as [K1 K2]. rewrite (mapM_bind _ g _ _ EX).
      change (sim (exact (CUnary g k) s) (made s (nd_unary g zero (s_heap s) a)) (ref_make (abs s) (a_shape a) (fun i => x <- get (s_heap s) a i;; g x))).
      eapply sim_fop; [exact K1|intros H; now apply K2| |reflexivity]. intros idx R. apply get_then; auto.
    - (* assign *) destruct A as (A1 & NO). apply sim_arr. intros a bc E. apply sim_arr. intros b bc2 E2. pose proof (CV _ _ _ E) as Va. pose proof (CV _ _ _ E2) as Vb.
      destruct (data_abs s a bc Va) as (xs & EX & ->). destruct (data_abs s b bc2 Vb) as (ys & EY & ->). cbn [bind fst snd tab_of t_shape t_write].
      destruct (sound_arr _ _ _ _ S E) as (n & LV & C). destruct bc; cbn [negb andb].
      { destruct (C15_assign_readonly_partial T f (s_heap s) _ n a C) as [-> _]. intros _. reflexivity. }
      destruct (broadcastableb (a_shape b) (a_shape a)) eqn:B.
      2: { rewrite C14_assign_shape_panics by (rewrite <- broadcastableb_spec; congruence). intros _. reflexivity. }
      apply broadcastableb_spec in B. destruct (X a false E eq_refl) as [FC NF]. specialize (NF b bc2 E2). pose proof (chain_inv _ _ _ _ C) as I. destruct (i_nb _ _ _ _ I eq_refl) as (P & _ & DI & _).
      destruct (chain_tight _ _ _ C) as (_ & NB & FL & W). destruct (A1 a false E) as [D PP].
      pose proof (nd_assign_ok f (s_heap s) a b Va Vb FL NB FC ltac:(rewrite (i_wr _ _ _ _ I); reflexivity) B D NF) as K.
      assert (M : mapM (fun idx => x <- at_ (a_shape a) xs idx;; y <- at_ (a_shape b) ys (bidx (a_shape b) idx);; f x y) (indices (a_shape a)) = assign_values f (s_heap s) a b).
      { apply mapM_ext. intros idx J. apply in_indices in J. now rewrite (at_get _ _ _ _ EX J), (at_get _ _ _ _ EY (bidx_in_range _ _ _ B J)). }
      rewrite M. destruct (assign_values f (s_heap s) a b) as [vs| |] eqn:AV.
      + destruct K as (h' & -> & EL & SE). cbn [bind]. now apply sim_put.
      + rewrite K. intros _. reflexivity.
      + exfalso. revert AV. unfold assign_values. assert (G : forall l, (forall i, In i l -> in_range i (a_shape a)) -> mapM (fun idx => x <- get (s_heap s) a idx;; y <- get (s_heap s) b (bidx (a_shape b) idx);; f x y) l <> Oob).
        { induction l as [|i l IH]; intros H; cbn [mapM]; [discriminate|]. destruct (proj2 Va i (H i (or_introl eq_refl))) as (x & ->).
          destruct (valid_get_bidx _ b (a_shape a) i Vb B (H i (or_introl eq_refl))) as (y & ->). cbn [bind]. pose proof (NO x y). destruct (f x y); cbn [bind]; try easy.
          specialize (IH ltac:(intros j J; apply H; now right)). destruct (mapM _ l); easy. }
        apply G. intros i J. now apply in_indices.
    - (* assign scalar *) destruct A as (A1 & NO). apply sim_arr. intros a bc E. pose proof (CV _ _ _ E) as Va.
      destruct (data_abs s a bc Va) as (xs & EX & ->). cbn [bind fst snd tab_of t_shape t_write]. destruct (sound_arr _ _ _ _ S E) as (n & LV & C). destruct bc; cbn [negb].
      { destruct (C15_assign_readonly_partial T f (s_heap s) _ n a C) as [_ ->]. intros _. reflexivity. }
      pose proof (X a false E eq_refl) as FC. pose proof (chain_inv _ _ _ _ C) as I. destruct (i_nb _ _ _ _ I eq_refl) as (P & _ & DI & _).
      destruct (chain_tight _ _ _ C) as (_ & NB & FL & W). destruct (A1 a false E) as [D PP].
      pose proof (nd_assign_scalar_ok f (s_heap s) a c Va FL NB FC ltac:(rewrite (i_wr _ _ _ _ I); reflexivity) D) as K.
      rewrite (mapM_bind _ (fun x => f x c) _ _ EX). destruct (mapM _ (indices (a_shape a))) as [vs| |] eqn:AV.
      + destruct K as (h' & -> & EL & SE). cbn [bind]. now apply sim_put.
      + rewrite K. intros _. reflexivity.
      + destruct (assign_scalar_sop zero add mul eqb _ f _ n false a c LV C (conj D PP) NO) as [N _]. contradiction.
    - (* fill *) apply sim_arr. intros a bc E. assert (bc = false) as -> by exact (A a bc E). destruct (sound_arr _ _ _ _ S E) as (n & LV & C). cbn [fst].
      destruct (C16_fill_partial T (s_heap s) _ n a v LV C) as (h' & -> & G & SE). pose proof (chain_inv _ _ _ _ C) as I. destruct (i_nb _ _ _ _ I eq_refl) as (P & _ & DI & _).
      apply sim_put; auto; [eauto|now apply pos_prod|]. cbn [tab_of t_cells fst]. unfold cells_of. rewrite map_map. apply mapM_pure_ext. intros idx J. apply G. now apply in_indices.
    - (* index *) apply sim_arr. intros a bc E. assert (bc = false) as -> by exact (A a bc E). destruct (sound_arr _ _ _ _ S E) as (n & LV & C). pose proof (CV _ _ _ E) as Va. pose proof (X a false E) as R.
      destruct (data_abs s a false Va) as (xs & EX & ->). cbn [bind fst snd tab_of t_shape]. rewrite (inside_spec _ _ R), (at_get _ _ _ _ EX R).
      destruct (C61_index_valid T (s_heap s) _ n a idx LV C R) as [-> (v & ->)]. destruct (Nat.ltb_spec (dot idx (a_stride a)) (a_len a)); [reflexivity|].
      intros EXA. specialize (EXA a false E). cbv beta in EXA. lia.
    - (* index_set *) apply sim_arr. intros a bc E. assert (bc = false) as -> by exact (A a bc E). destruct (sound_arr _ _ _ _ S E) as (n & LV & C). pose proof (CV _ _ _ E) as Va. pose proof (X a false E) as R.
      cbn [fst tab_of t_shape]. rewrite (inside_spec _ _ R). destruct (C61_index T (s_heap s) _ n a idx LV C) as (_ & _ & K1 & K2).
      destruct (le_lt_dec (a_len a) (dot idx (a_stride a))) as [L|L].
      + rewrite K1 by (now right). intros EXA. specialize (EXA a false E). cbv beta in EXA. lia.
      + destruct (K2 ltac:(rewrite (in_range_length _ _ R); lia) L v) as (h' & -> & _ & LD & SE). cbn [stored bind sim]. f_equal. symmetry.
        rewrite <- (cell_tab a false idx R) in *. change (t_buf (tab_of (a, false))) with (a_blk a).
        destruct (proj2 Va idx R) as (x & G). unfold get in G. rewrite <- (cell_tab a false idx R) in G. apply abs_put.
        * reflexivity.
        * constructor; [easy|constructor].
        * intros o [<-|[]]. eauto.
        * now apply load_lt in G.
        * destruct SE as [LH SE]. split; [exact LH|]. intros b o N. apply SE. intros [-> ->]. apply N. split; [reflexivity|now left].
        * intros [|[|?]] o w N1 N2; try discriminate. injection N1 as <-. injection N2 as <-. exact LD.
    - (* value *) apply sim_arr. intros a bc E. pose proof (CV _ _ _ E) as Va. destruct (data_abs s a bc Va) as (xs & EX & ->). cbn [bind fst]. destruct (C23_value T (s_heap s) a) as [K1 K2].
      pose proof (mapM_length _ _ _ EX) as LX. rewrite indices_length in LX. destruct (Nat.eq_dec (prod (a_shape a)) 1) as [P1|P1].
      + rewrite K1 by exact P1. pose proof (zero_in_range (a_shape a) ltac:(lia)) as R. destruct (nth_error_of_indices_get _ _ _ _ EX R) as (y & N & ->).
        destruct xs as [|x [|? ?]]; cbn [length] in LX; try lia. cbn [only_read bind sim]. assert (x = y) as ->; [|reflexivity].
        pose proof (rank_lt _ _ R). rewrite P1 in H. replace (rank _ _) with 0 in N by lia. cbn in N. congruence.
      + rewrite K2 by exact P1. intros _. destruct xs as [|x [|? ?]]; try reflexivity. cbn in LX. lia.
    - (* data_slice *) apply sim_arr. intros a bc E. assert (bc = false) as -> by exact (A a bc E). destruct (sound_arr _ _ _ _ S E) as (n & LV & C). pose proof (CV _ _ _ E) as Va.
      destruct (data_abs s a false Va) as (xs & EX & ->). cbn [bind fst]. destruct (chain_tight _ _ _ C) as (TI & NB & FL & W). rewrite nd_data_slice_eq by auto.
      destruct (f_contig (a_fl a)) eqn:FC; [rewrite EX; reflexivity|]. intros EXA. specialize (EXA a false E). cbv beta in EXA. congruence.
    - (* flatiter *) apply sim_arr. intros a bc E. pose proof (CV _ _ _ E) as Va. destruct (data_abs s a bc Va) as (xs & EX & ->). cbn [bind fst].
      rewrite nd_flatiter_eq; [rewrite EX; reflexivity|apply Va|apply (A a bc E)].
    - (* equal *) apply sim_arr. intros a bc E. apply sim_arr. intros b bc2 E2. pose proof (CV _ _ _ E) as Va. pose proof (CV _ _ _ E2) as Vb.
      destruct (data_abs s a bc Va) as (xs & EX & ->). destruct (data_abs s b bc2 Vb) as (ys & EY & ->). cbn [bind fst tab_of t_shape].
      destruct (C18_equality T eqb (s_heap s) a b Va Vb ltac:(apply (A a bc E))) as (r & -> & K). cbn [only_read bind sim]. unfold abs, ref_say. cbn [s_heap s_env s_out r_bufs r_env r_out]. do 5 f_equal.
      apply eq_iff_eq_true. rewrite andb_true_iff, shapeseqb_spec, K. split; intros [S1 H]; (split; [exact S1|]); revert H; apply (same_vals_spec eqb _ _ _ _ _ S1 EX EY).
    - (* clone *) apply sim_arr. intros a bc E. destruct (sound_arr _ _ _ _ S E) as (n & LV & C). destruct (A a bc E) as [[D P] B].
      destruct (data_abs s a bc (CV _ _ _ E)) as (xs & EX & ->). cbn [bind fst tab_of t_shape].
      destruct (C17_clone_partial T (s_heap s) _ n bc a LV C B D P) as (h' & r & r' & -> & K2 & _). eapply sim_fresh_vals; [exact K2|exact EX].
    - (* flatten *) apply sim_arr. intros a bc E. destruct (sound_arr _ _ _ _ S E) as (n & LV & C). destruct (A a bc E) as [[D P] B].
      destruct (data_abs s a bc (CV _ _ _ E)) as (xs & EX & ->). cbn [bind fst tab_of t_shape].
      destruct (C17_clone_partial T (s_heap s) _ n bc a LV C B D P) as (h' & r & r' & _ & _ & _ & -> & K1 & K2). eapply sim_fresh_vals; [exact K1|].
      rewrite <- (fresh_elems _ _ _ _ _ K1). congruence.
    - (* reduce *) destruct A as (A1 & NO). apply sim_arr. intros a bc E. destruct (sound_arr _ _ _ _ S E) as (n & LV & C). destruct (A1 a bc E) as [[D P] B].
      destruct (data_abs s a bc (CV _ _ _ E)) as (xs & EX & ->). cbn [bind fst tab_of t_shape].
      assert (CC : chain (a_blk a) n false a \/ chain (a_blk a) n true a /\ has_uniform_stride (a_shape a) (a_stride a) = None) by (destruct B as [-> |B]; [now left|]; destruct bc; auto).
      destruct (C19_fold_partial T g (s_heap s) _ n a start LV CC D) as (vs & EV & F1 & F2). assert (vs = xs) as -> by congruence.
      pose proof (foldM_noob g xs NO start) as N. destruct (foldM g xs start) as [v| |]; [|rewrite F2 by reflexivity; intros _; reflexivity|easy].
      destruct (F1 v eq_refl) as (h' & r & -> & F). cbn [bind]. eapply sim_fresh_vals; [exact F|reflexivity].
    - (* reduce_along *) destruct A as (A1 & NO). apply sim_arr. intros a bc E. pose proof (CV _ _ _ E) as Va. destruct (data_abs s a bc Va) as (xs & EX & ->). cbn [bind fst tab_of t_shape].
      apply sim_weaken, reduce_along_sim; auto. exact (A1 a bc E).
    - (* trace *) destruct A as (A1 & NO). apply sim_arr. intros a bc E. destruct (sound_arr _ _ _ _ S E) as (n & LV & C). apply sim_weaken. cbn [fst]. exact (trace_sim zero s g n bc a o i j LV C (A1 a bc E) NO).
    - (* dot *) destruct A as (A1 & A2). apply sim_arr. intros a bc E. apply sim_arr. intros b bc2 E2. pose proof (CV _ _ _ E) as Va. pose proof (CV _ _ _ E2) as Vb.
      destruct (data_abs s a bc Va) as (xs & EX & ->). destruct (data_abs s b bc2 Vb) as (ys & EY & ->). cbn [bind fst tab_of t_shape].
      destruct (C26_mismatch_panics T zero one (okadd add) (okadd mul) (okfma add mul) (s_heap s) a b) as (M & _). destruct (A1 a bc E) as [_ P].
      destruct (a_shape a) as [|n [|? ?]] eqn:Sa; try (rewrite M by (left; discriminate); intros _; reflexivity).
      destruct (a_shape b) as [|n' [|? ?]] eqn:Sb; try (rewrite M by (right; left; discriminate); intros _; reflexivity).
      destruct (Nat.eqb_spec n n') as [<-|N]; [|rewrite M by (right; right; congruence); intros _; reflexivity].
      apply sim_weaken. eapply dot_sim; eauto. cbn in P. lia.
    - (* matmul *) destruct A as (A1 & A2). apply sim_arr. intros a bc E. apply sim_arr. intros b bc2 E2. pose proof (CV _ _ _ E) as Va. pose proof (CV _ _ _ E2) as Vb.
      destruct (data_abs s a bc Va) as (xs & EX & ->). destruct (data_abs s b bc2 Vb) as (ys & EY & ->). cbn [bind fst]. apply sim_weaken. eapply matmul_sim; eauto; (exact (A1 a bc E) || exact (A2 b bc2 E2)).
    - (* bmm *) destruct A as (A1 & A2). apply sim_arr. intros a bc E. apply sim_arr. intros b bc2 E2. pose proof (CV _ _ _ E) as Va. pose proof (CV _ _ _ E2) as Vb.
      destruct (data_abs s a bc Va) as (xs & EX & ->). destruct (data_abs s b bc2 Vb) as (ys & EY & ->). cbn [bind fst]. apply sim_weaken. eapply bmm_sim; eauto; (exact (A1 a bc E) || exact (A2 b bc2 E2)).
    - (* einsum *) destruct (mapM (nth_arr s) ks) as [l| |] eqn:M; cbn [bind].
      + apply sim_weaken. apply (einsum_sim zero one add mul eqb s ks subs out l RG S M A).
      + intros _. assert (TS : mapM (tab (abs s)) ks = Panic); [|now rewrite TS].
        clear -M. revert M. induction ks as [|k ks IH]; cbn [mapM]; [discriminate|]. unfold nth_arr at 1, tab at 1. cbn [abs r_env]. rewrite nth_error_map.
        destruct (nth_error (s_env s) k); cbn [option_map orPanic bind]; [|reflexivity]. destruct (mapM (nth_arr s) ks); cbn [bind]; try discriminate. intros _. now rewrite IH.
      + exfalso. revert M. change (noob (mapM (nth_arr s) ks)). clear. induction ks as [|k ks IH]; cbn [mapM]; [nb|].
        apply noob_bind; [unfold nth_arr; nb|intros]. apply noob_bind; [exact IH|intros; nb].
  Qed.

  (** at every point the program reaches *)
  Fixpoint all_supported (cs : list cmd) (s : state) : Prop :=
    match cs with [] => True | c :: cs' => supported c s /\ forall s', exec c s = Ok s' -> all_supported cs' s' end.
  Fixpoint all_exact (cs : list cmd) (s : state) : Prop :=
    match cs with [] => True | c :: cs' => exact c s /\ forall s', exec c s = Ok s' -> all_exact cs' s' end.

  Lemma exec_all_ref cs : forall s, sound s -> all_supported cs s ->
    sim (all_exact cs s) (exec_all cs s) (ref_all cs (abs s)) /\ forall s', exec_all cs s = Ok s' -> sound s'.
  Proof.
    induction cs as [|c cs IH]; intros s S A; cbn [Prog.exec_all SpecRef.ref_all]; [split; [reflexivity|now intros s' [= <-]]|].
    destruct A as [A1 A2]. pose proof (exec_ref c s S A1) as R. destruct A1 as (AL & RG & _). destruct (exec_good zero one add mul eqb c s RG S AL) as [_ G].
    destruct (exec c s) as [s1| |] eqn:E; cbn [sim bind] in R |- *; [|split; [|discriminate]|contradiction].
    - rewrite R. cbn [bind]. destruct (IH s1 (G s1 eq_refl) (A2 s1 eq_refl)) as [H1 H2]. split; [|exact H2].
      destruct (exec_all cs s1); cbn [sim] in *; auto. intros [_ X]. apply H1. cbn [all_exact] in X. now apply X.
    - intros [X _]. rewrite R by exact X. reflexivity.
  Qed.
End Main.

(** a program that starts with no arrays: what it reads, and every array it leaves, is what the
    machine says; where no command is rejected for its layout, both reject the same programs *)
Theorem C63_programs : forall T (zero one : T) add mul eqb cs s', all_supported zero one add mul eqb cs (mkState [] [] []) ->
  exec_all zero one add mul eqb cs (mkState [] [] []) = Ok s' ->
  exists r, ref_all zero one add mul eqb cs (mkRef [] [] []) = Ok r /\ r_out r = s_out s' /\ length (r_env r) = length (s_env s') /\
    forall k a bc t, nth_error (s_env s') k = Some (a, bc) -> nth_error (r_env r) k = Some t ->
      t_shape t = a_shape a /\ exists vs, data r t = Ok vs /\ elems (s_heap s') a = Ok vs.
Proof.
  intros T zero one add mul eqb cs s' A E. destruct (exec_all_ref zero one add mul eqb cs _ (sound_start T) A) as [R S]. rewrite E in R. cbn [sim] in R.
  exists (abs s'). split; [exact R|]. split; [reflexivity|]. split; [apply map_length|]. intros k a bc t N1 N2. cbn [abs r_env] in N2. rewrite nth_error_map, N1 in N2. injection N2 as <-.
  split; [reflexivity|]. destruct (sound_arr _ _ _ _ (S _ E) N1) as (n & LV & C). destruct (data_abs s' a bc (chain_valid _ _ _ _ _ LV C)) as (vs & E1 & E2). eauto.
Qed.
Print Assumptions C63_programs.

Theorem C63_rejects : forall T (zero one : T) add mul eqb cs, all_supported zero one add mul eqb cs (mkState [] [] []) -> all_exact zero one add mul eqb cs (mkState [] [] []) ->
  (exec_all zero one add mul eqb cs (mkState [] [] []) = Panic <-> ref_all zero one add mul eqb cs (mkRef [] [] []) = Panic).
Proof.
  intros T zero one add mul eqb cs A X. destruct (exec_all_ref zero one add mul eqb cs _ (sound_start T) A) as [R _]. change (abs (mkState [] [] [])) with (@mkRef T [] [] []) in R.
  destruct (exec_all _ _ _ _ _ cs _) as [s'| |]; cbn [sim] in R; [|tauto|contradiction]. split; [discriminate|]. intros E. rewrite R in E. discriminate.
Qed.
Print Assumptions C63_rejects.

(** from any states whose arrays list the same cells with the same contents, whatever the strides and flags *)
Theorem C63_layout_independent : forall T (zero one : T) add mul eqb cs s1 s2 s1' s2', sound s1 -> sound s2 -> abs s1 = abs s2 ->
  all_supported zero one add mul eqb cs s1 -> all_supported zero one add mul eqb cs s2 ->
  exec_all zero one add mul eqb cs s1 = Ok s1' -> exec_all zero one add mul eqb cs s2 = Ok s2' -> abs s1' = abs s2' /\ s_out s1' = s_out s2'.
Proof.
  intros T zero one add mul eqb cs s1 s2 s1' s2' S1 S2 EQ A1 A2 E1 E2. destruct (exec_all_ref zero one add mul eqb cs _ S1 A1) as [R1 _]. destruct (exec_all_ref zero one add mul eqb cs _ S2 A2) as [R2 _].
  rewrite E1 in R1. rewrite E2 in R2. cbn [sim] in R1, R2. assert (H : abs s1' = abs s2') by congruence. split; [exact H|]. change (r_out (abs s1') = r_out (abs s2')). now rewrite H.
Qed.
Print Assumptions C63_layout_independent.

(** the program of C62, then: read the matrix product, its trace, an einsum of the array with itself, whether two arrays are equal *)
Definition prog2 : list (@cmd nat) :=
  firstn 9 prog ++ [CFlatiter 3; CTrace (fun x y => Ok (x + y)) 3 0%Z 0%Z 1%Z; CValue 8; CEinsum [0; 0] [[105; 106]; [107; 106]]%Z [105; 107]%Z; CIndexSet 9 [0; 1] 0; CFlatiter 9; CEqual 3 9].
Example C63_ex : all_supported 0 1 Nat.add Nat.mul Nat.eqb prog2 (mkState [] [] []) /\
  exists s r, exec_all 0 1 Nat.add Nat.mul Nat.eqb prog2 (mkState [] [] []) = Ok s /\ ref_all 0 1 Nat.add Nat.mul Nat.eqb prog2 (mkRef [] [] []) = Ok r /\
    s_out s = [OVals [25; 46; 46; 85]; OVals [110]; OVals [29; 0; 56; 110]; OBool false] /\ r_out r = s_out s.
Proof.
  Ltac step := split; [|let s := fresh in let E := fresh in intros s E; vm_compute in E; injection E as <-].
  Ltac here := intros a bc E; injection E as <- <-.
  split.
  - cbn [firstn prog prog2 app all_supported]. step.
    { split; [|split; exact I]. split; [exists 1, [3]; reflexivity|]. split; [discriminate|]. exists [2; 3]. split; [|split; [|split; [reflexivity|cbn; lia]]]; cbn;
        repeat match goal with |- exists _, _ => eexists | |- _ /\ _ => split | |- Forall _ _ => constructor | |- _ = _ => reflexivity end. }
    step. { split; [|split; [exact I|here; vm_compute; lia]]. here. split; [cbn; lia|repeat constructor]. }
    step. { split; [|split; [exact I|here; exact I]]. here. exact I. }
    step. { split; [|split; [exact I|here; reflexivity]]. split; [here; split; vm_compute; lia|discriminate]. }
    step. { split; [|split; [exact nat_csr|exact I]]. split; here; split; vm_compute; lia. }
    step. { split; [|split; [exact I|here; vm_compute; lia]]. here. split; [cbn; lia|repeat constructor]. }
    step. { split; [|split; [exact I|here; exact I]]. here. exact I. }
    step. { split; [|split; exact I]. split; [|split; [|discriminate]]; here; split; vm_compute; lia. }
    step. { split; [|split; exact I]. split; [here; split; vm_compute; lia|discriminate]. }
    step. { split; [|split; exact I]. here; split; vm_compute; lia. }
    step. { split; [|split; exact I]. split; [here; split; vm_compute; lia|discriminate]. }
    step. { split; [|split; exact I]. exact I. }
    step. { split; [|split; [exact nat_csr|exact I]]. split; [intros k [<-|[<-|[]]]; here; split; vm_compute; lia|]. split; [cbn; lia|].
      split; [repeat constructor; unfold letter; lia|]. split; [repeat constructor; unfold letter; lia|].
      exists [106%Z], (fun l => if (l =? 106)%Z then 3 else 2). split; [repeat constructor; cbn; intuition lia|]. split; [|split; [discriminate|split; [cbn; lia|]]].
      - intros l. cbn. split; [intros [<-|[<-|[<-|[]]]]; eauto 8|]. + exists [105; 106]%Z. cbn. auto. + exists [107; 106]%Z. cbn. auto. + exists [105; 106]%Z. cbn. auto. + intros (q & [<-|[<-|[]]] & J); cbn in J; intuition subst; auto.
      - constructor; [here; reflexivity|]. constructor; [here; reflexivity|constructor]. }
    step. { split; [|split; [exact I|here; repeat constructor]]. here. reflexivity. }
    step. { split; [|split; exact I]. here; split; vm_compute; lia. }
    step. { split; [|split; exact I]. here; split; vm_compute; lia. }
    exact I.
  - eexists. eexists. split; [vm_compute; reflexivity|]. split; [vm_compute; reflexivity|]. split; reflexivity.
Qed.

(** outside these conditions the library departs from the machine: adding a column to the
    whole array, through the transpose (C14); an index out of range (C24); a slice out of range (C09) *)
Example C63_unsupported_ex :
  let lib cs := match exec_all 0 1 Nat.add Nat.mul Nat.eqb cs (mkState [] [] []) with Ok s => Ok (s_out s) | Panic => Panic | Oob => Oob end in
  let mach cs := match ref_all 0 1 Nat.add Nat.mul Nat.eqb cs (mkRef [] [] []) with Ok r => Ok (r_out r) | Panic => Panic | Oob => Oob end in
  let m := CNew [KArr 2; KArr 2] (Node [Node [Leaf 1; Leaf 2]; Node [Leaf 3; Leaf 4]]) in
  let t := [m; CView (VTranspose ByRef 0 1) 0; CAssign (fun x y => Ok (x + y)) 0 1; CFlatiter 0] in
  let i := [m; CIndex 0 [0; 3]] in let v := [m; CView (VSlice [IRange 0 1; IRange 0 3]) 0; CFlatiter 1] in
  lib t <> mach t /\ lib i <> mach i /\ lib v <> mach v.
Proof. vm_compute. repeat split; discriminate. Qed.

(** both reject adding arrays of shapes [2] and [3] *)
Example C63_rejects_ex : let cs := [CFull 1 [2]; CFull 1 [3]; CView (VReshape ByRef [3; 1]) 1; CBinary (fun x y => Ok (x + y)) 0 1] in
  all_supported 0 1 Nat.add Nat.mul Nat.eqb cs (mkState [] [] []) /\ all_exact 0 1 Nat.add Nat.mul Nat.eqb cs (mkState [] [] []) /\
  exec_all 0 1 Nat.add Nat.mul Nat.eqb cs (mkState [] [] []) = Panic.
Proof.
  split; [|split; [|reflexivity]].
  - cbn [all_supported]. step. { repeat split. } step. { repeat split. } step. { split; [|split; [exact I|here; exact I]]. here. reflexivity. }
    split; [|intros s' E; vm_compute in E; discriminate]. split; [|split; exact I]. split; [|split; [|discriminate]]; here; split; vm_compute; lia.
  - cbn [all_exact]. step. { exact I. } step. { exact I. } step. { here. split; [reflexivity|discriminate]. } split; [exact I|]. intros s' E; vm_compute in E; discriminate.
Qed.

(** shape [1; 3] with strides [3; 1], and the same by transposing [3; 1]: strides [1; 1] *)
Definition row_a : arr := fresh_arr 0 3 [1; 3].
Definition row_b : arr := Eval vm_compute in match nd_transpose ByRef (fresh_arr 0 3 [3; 1]) 0 1 with Ok a => a | _ => row_a end.
Example C63_layout_ex : let h := [Some [5; 6; 7]] in let s1 := mkState h [(row_a, false)] [] in let s2 := mkState h [(row_b, false)] [] in
  let cs := [CBinary (fun x y => Ok (x * y)) 0 0; CFlatiter 1] in
  row_a <> row_b /\ sound s1 /\ sound s2 /\ abs s1 = abs s2 /\ all_supported 0 1 Nat.add Nat.mul Nat.eqb cs s1 /\ all_supported 0 1 Nat.add Nat.mul Nat.eqb cs s2 /\
  (exists s, exec_all 0 1 Nat.add Nat.mul Nat.eqb cs s1 = Ok s /\ s_out s = [OVals [25; 36; 49]]) /\ exists s, exec_all 0 1 Nat.add Nat.mul Nat.eqb cs s2 = Ok s.
Proof.
  cbv zeta. split; [discriminate|]. split; [|split; [|split; [reflexivity|split; [|split; [|split]]]]].
  - constructor; [|constructor]. exists 3. split; [eexists; split; reflexivity|]. apply Ch_new; cbn; lia.
  - constructor; [|constructor]. exists 3. split; [eexists; split; reflexivity|]. eapply (Ch_transpose 0 3 false (fresh_arr 0 3 [3; 1]) ByRef 0 1); [|reflexivity]. apply Ch_new; cbn; lia.
  - cbn [all_supported]. step. { split; [|split; exact I]. split; [|split; [|discriminate]]; here; split; vm_compute; lia. }
    step. { split; [|split; exact I]. here; split; vm_compute; lia. } exact I.
  - cbn [all_supported]. step. { split; [|split; exact I]. split; [|split; [|discriminate]]; here; split; vm_compute; lia. }
    step. { split; [|split; exact I]. here; split; vm_compute; lia. } exact I.
  - eexists. split; vm_compute; reflexivity.
  - eexists. vm_compute. reflexivity.
Qed.
