(** PropsWordRoom.v: programs with room in their words do not overflow (C81). *)
From Coq Require Import List Arith Lia Bool ZArith Permutation.
From Verif Require Import Base Spec Layout SpecFacts LayoutFacts Views ViewsFacts ViewsFacts2 ViewsFacts3 Kernels Access HeapFacts KernelFacts OpFacts
  AccessFacts Chain ChainFacts PropsViews PropsOps Reduce ReduceFacts Einsum EinsumFacts EinsumFacts5 EinsumFacts7 EinsumFacts8 EinsumParse Nested PropsEinsum Prog PropsProg Word PropsWord WordViews PropsWordViews WordOps PropsWordOps.
Import ListNotations.
Open Scope res_scope.

(** ** Derived layouts that fit *)
Lemma upd_lt {A} (l : list A) : forall k v l', upd l k v = Some l' -> k < length l.
Proof.
  induction l as [|x l IH]; intros [|k] v l' E; cbn [upd length] in *; try discriminate; [lia|]. destruct (upd l k v) eqn:U; [|discriminate]. apply IH in U. lia.
Qed.

Lemma collapse_go_in sh : forall n s st x, In x (snd (collapse_go n s sh st)) -> x = s \/ In x st.
Proof.
  induction sh as [|d sh IH]; intros n s [|s' st] x; cbn [collapse_go]; try (intros [->|[]]; now left).
  destruct ((s =? d * s') || ((s =? 0) && (n =? 1))).
  - intros I. apply IH in I as [->|I]; right; [now left|now right].
  - destruct (collapse_go d s' sh st) as [a b] eqn:E. cbn [snd]. intros [->|I]; [now left|]. specialize (IH d s' st x). rewrite E in IH. cbn [snd] in IH.
    destruct (IH I) as [->|I']; right; [now left|now right].
Qed.

Lemma collapse_fits W n sh st a b : fits W n sh st -> collapse sh st = (a, b) -> fits W n a b.
Proof.
  intros F E. pose proof (eq_sym (fit_len _ _ _ _ F)) as L. pose proof (collapse_prod sh st a b L E) as P. pose proof (collapse_offsets sh st a b L E) as (O & LA & _).
  pose proof (proj1 (pos_prod _) (fit_pos _ _ _ _ F)) as PP. constructor.
  - lia.
  - apply pos_prod. lia.
  - intros idx I. pose proof (offsets_nth a b idx I) as Q. rewrite O in Q. apply nth_error_In in Q. unfold offsets in Q. apply in_map_iff in Q as (j & <- & J). apply in_indices in J.
    now apply (fit_in _ _ _ _ F).
  - apply F.
  - apply Forall_forall. intros x I. destruct sh as [|d sh], st as [|s st]; cbn [collapse] in E; try (injection E as <- <-; destruct I).
    destruct (collapse_go_in sh d s st x) as [->|I']; [now rewrite E| |]; apply (proj1 (Forall_forall _ _) (fit_st _ _ _ _ F)); [now left|now right].
  - rewrite P. apply F.
Qed.

Lemma fits_init W n sh st : fits W n sh st -> fits W n (removelast sh) (removelast st).
Proof.
  intros F. destruct (Nat.eq_dec (length sh) 0) as [Z|NZ].
  { destruct sh; [|discriminate]. pose proof (fit_len _ _ _ _ F) as L. destruct st; [exact F|discriminate]. }
  pose proof (fit_len _ _ _ _ F) as L. assert (sh <> []) by (intros ->; cbn in NZ; lia). assert (st <> []) by (intros ->; cbn in L; lia).
  pose proof (app_removelast_last 0 H) as Es. pose proof (app_removelast_last 0 H0) as Et. pose proof (fits_n _ _ _ _ F) as NW.
  set (sh0 := removelast sh) in *. set (st0 := removelast st) in *.
  assert (L0 : length st0 = length sh0). { apply (f_equal (@length nat)) in Es, Et. rewrite app_length in Es, Et. cbn in Es, Et. lia. }
  pose proof (fit_pos _ _ _ _ F) as P. rewrite Es in P. apply Forall_app in P as [P0 P1]. inversion P1; subst.
  pose proof (fit_st _ _ _ _ F) as FS. rewrite Et in FS. apply Forall_app in FS as [F0 _]. pose proof (fit_prod _ _ _ _ F) as Q. rewrite Es, prod_app in Q. cbn [prod fold_right] in Q.
  constructor; auto; [|apply F|].
  - intros idx I. pose proof (fit_in _ _ _ _ F (idx ++ [0])) as K. rewrite Es, Et in K. rewrite dot_app in K by (rewrite L0; now apply in_range_length). cbn [dot] in K.
    assert (in_range (idx ++ [0]) (sh0 ++ [last sh 0])) as R. { apply Forall2_app; [exact I|]. constructor; [lia|constructor]. }
    specialize (K R). lia.
  - unfold prod in *. cbn [fold_right] in Q. nia.
Qed.

Lemma bstride_go_in osh : forall st bsh r x, bstride_go st bsh osh = Ok r -> In x r -> x = 0 \/ In x st.
Proof.
  induction osh as [|n osh IH]; intros [|s st] [|m bsh] r x E I; cbn [bstride_go] in E; try (assert (r = []) by congruence; subst r; destruct I).
  apply bind_Ok_inv in E as (y & Y & E). apply bind_Ok_inv in E as (r' & E & Q). injection Q as <-.
  destruct I as [->|I]; [|destruct (IH _ _ _ _ E I); [now left|right; now right]].
  destruct (n =? 1); [injection Y as <-; now left|]. destruct (n =? m); [injection Y as <-; right; now left|discriminate].
Qed.

Lemma broadcast_fits W n sh st to r : fits W n sh st -> broadcastable sh to -> broadcast_stride st to sh = Ok r -> pos to -> prod to < W -> fits W n to r.
Proof.
  intros F B E P Q. destruct (broadcast_stride_ok sh st to (fit_len _ _ _ _ F) B) as (r' & E' & L & H). assert (r' = r) by congruence. subst r'. constructor; auto; [|apply F|].
  - intros idx I. destruct (H idx I) as [R ->]. now apply (fit_in _ _ _ _ F).
  - apply Forall_forall. intros x I. unfold broadcast_stride in E. destruct (length to <? length sh); [discriminate|]. apply bind_Ok_inv in E as (g & G & E). injection E as <-.
    pose proof (fits_n _ _ _ _ F). apply in_app_or in I as [I|I]; [apply repeat_spec in I; lia|].
    destruct (bstride_go_in _ _ _ _ _ G I) as [->|I']; [lia|]. now apply (proj1 (Forall_forall _ _) (fit_st _ _ _ _ F)).
Qed.

(** ** Kernels on layouts that fit *)
Section Fit.
  Variable W : nat.
  Variable bld : build.

  Lemma wcollapse_ok n sh st : fits W n sh st -> wcollapse W bld sh st = Ok (collapse sh st).
  Proof.
    intros F. destruct sh as [|d sh], st as [|s st]; cbn [wcollapse collapse]; try reflexivity. pose proof (fit_prod _ _ _ _ F) as Q. rewrite prod_cons in Q.
    apply fits_cons in F as (D & _ & F). apply (wcollapse_go_ok W bld n); auto; lia.
  Qed.
  Lemma wuniform_ok n sh st : fits W n sh st -> wuniform W bld sh st = Ok (has_uniform_stride sh st).
  Proof.
    intros F. unfold wuniform, has_uniform_stride. destruct sh as [|d sh], st as [|s st]; try reflexivity. apply fits_cons in F as (_ & _ & F). now apply (wuniform_go_ok W bld n).
  Qed.

  Lemma wfresh_ok b n sh : 0 < prod sh < W -> wfresh W bld b n sh = Ok (fresh_arr b n sh).
  Proof. intros [P L]. unfold wfresh, fresh_arr, stride_from_shape. rewrite wstrides_ok by lia. cbn [bind]. now rewrite reshape_strides_1. Qed.
  Lemma wprod_ok sh : 0 < prod sh < W -> wprod W bld sh = Ok (prod sh).
  Proof. intros [P L]. unfold wprod. rewrite wprod_from_ok by lia. f_equal. lia. Qed.
  Lemma wfull_room {T} (h : heap T) x sh : 0 < prod sh < W -> wfull W bld h x sh = nd_full h x sh.
  Proof. intros [P L]. now apply full_ok. Qed.
  Lemma wfrom_buffer_ok {T} (h : heap T) sh d : 0 < prod sh < W -> wfrom_buffer W bld h sh d = Ok (from_buffer h sh d).
  Proof. intros PL. unfold wfrom_buffer, from_buffer. cbn [alloc]. now rewrite wfresh_ok. Qed.

  Section Ops.
    Context {T : Type}.
    Variable f : T -> T -> res T.
    Variable g : T -> res T.
    Variable r : T -> T -> res T.

    Lemma wk_xn_ok n h lhs lsh lst rhs rs dst c : fits W n lsh lst -> wk_xn W bld f h lhs lsh lst rhs rs dst c = k_xn f h lhs lsh lst rhs rs dst c.
    Proof. intros F. unfold wk_xn, k_xn. now rewrite (wfig_list_ok W bld n). Qed.
    Lemma wk_nx_ok n h lhs ls rhs rsh rst dst c : fits W n rsh rst -> wk_nx W bld f h lhs ls rhs rsh rst dst c = k_nx f h lhs ls rhs rsh rst dst c.
    Proof. intros F. unfold wk_nx, k_nx. now rewrite (wfig_list_ok W bld n). Qed.
    Lemma wk_xx_ok n m h lhs lsh lst rhs rsh rst dst : fits W n lsh lst -> fits W m rsh rst -> wk_xx W bld f h lhs lsh lst rhs rsh rst dst = k_xx f h lhs lsh lst rhs rsh rst dst.
    Proof. intros F G. unfold wk_xx, k_xx. now rewrite (wfig_list_ok W bld n), (wfig_list_ok W bld m). Qed.

    Lemma wk_scalar_ok n h lhs sh st c dst : fits W n sh st -> wk_scalar W bld f h lhs sh st c dst = k_scalar f h lhs sh st c dst.
    Proof.
      intros F. unfold wk_scalar, k_scalar. destruct st as [|s st]; [reflexivity|]. rewrite (wcollapse_ok n) by exact F. cbn [bind]. destruct (collapse sh (s :: st)) as [a b] eqn:E.
      pose proof (collapse_fits _ _ _ _ _ _ F E) as F'. destruct (last_of b) as [i| |]; cbn [bind]; try reflexivity. destruct (length a =? 1).
      - destruct (vget a 0); cbn [bind]; try reflexivity. destruct (Nat.eqb_spec i 1) as [->|]; reflexivity.
      - rewrite (wprod_fits W bld n _ _ F'). cbn [bind]. now apply (wk_xn_ok n).
    Qed.

    Lemma wk_binary_ok n m h lhs lst rhs rst dst sh : fits W n sh lst -> fits W m sh rst -> wk_binary W bld f h lhs lst rhs rst dst sh = k_binary f h lhs lst rhs rst dst sh.
    Proof.
      intros F G. unfold wk_binary, k_binary. destruct ((length lst =? 0) && (length rst =? 0)); [reflexivity|]. rewrite (wcollapse_ok n), (wcollapse_ok m) by assumption. cbn [bind].
      destruct (collapse sh lst) as [a b] eqn:E. destruct (collapse sh rst) as [c d] eqn:E'. pose proof (collapse_fits _ _ _ _ _ _ F E) as F1. pose proof (collapse_fits _ _ _ _ _ _ G E') as G1.
      do 4 (apply bind_ext; intros ? _). now rewrite !(wk_xn_ok n _ _ _ _ _ _ _ _ F1), !(wk_nx_ok m _ _ _ _ _ _ _ _ G1), (wk_xx_ok n m _ _ _ _ _ _ _ _ F1 G1).
    Qed.

    Lemma wk_unary_ok n h p sh st dst : fits W n sh st -> wk_unary W bld g h p sh st dst = k_unary g h p sh st dst.
    Proof.
      intros F. unfold wk_unary, k_unary. destruct sh as [|d sh]; [reflexivity|]. rewrite (wcollapse_ok n) by exact F. cbn [bind]. destruct (collapse (d :: sh) st) as [a b] eqn:E.
      pose proof (collapse_fits _ _ _ _ _ _ F E) as F'. rewrite (wfig_list_ok W bld n _ _ F'). destruct (length a =? 1); [|reflexivity]. destruct (vget a 0); cbn [bind]; try reflexivity.
      destruct (vget b 0) as [s| |]; cbn [bind]; try reflexivity. destruct (Nat.eqb_spec s 0) as [->|]; [reflexivity|]. destruct (Nat.eqb_spec s 1) as [->|]; reflexivity.
    Qed.

    Lemma wk_fill_ok n v sh : forall h p st len, fits W n sh st -> wk_fill W bld h p sh st len v = k_fill (T:=T) h p sh st len v.
    Proof.
      induction sh as [|d sh IH]; intros h p st len F.
      - destruct st; [reflexivity|]. pose proof (fit_len _ _ _ _ F). discriminate.
      - destruct st as [|s st]; [pose proof (fit_len _ _ _ _ F); discriminate|]. cbn [wk_fill k_fill]. rewrite (wuniform_ok n _ _ F). cbn [bind].
        destruct (has_uniform_stride (d :: sh) (s :: st)) as [u|]; [rewrite (wprod_fits W bld n _ _ F); reflexivity|].
        pose proof (fits_cons _ _ _ _ _ _ F) as (_ & _ & F'). assert (X : forall h p, (n1 <- vget sh 0 ;; s1 <- vget st 0 ;; l <- word W bld (n1 * s1) ;; wk_fill W bld h p sh st l v) =
          (n1 <- vget sh 0 ;; s1 <- vget st 0 ;; k_fill h p sh st (n1 * s1) v)).
        { intros h0 p0. destruct sh as [|d1 sh]; [reflexivity|]. destruct st as [|s1 st]; [reflexivity|]. cbn [vget nth_error bind]. pose proof (fits_cons _ _ _ _ _ _ F') as (_ & Q & _).
          rewrite word_ok by exact Q. cbn [bind]. now apply IH. }
        clear IH F F'. revert h p. induction d as [|d IHd]; intros h p; cbn [loop_ptr]; [reflexivity|]. rewrite X. apply bind_ext. intros h' _. apply IHd.
    Qed.

    Lemma wk_reduce_ok n d h p sh st : fits W n sh st -> wk_reduce W bld r d h p sh st = k_reduce r d h p sh st.
    Proof.
      intros F. unfold wk_reduce, k_reduce. rewrite (wuniform_ok n _ _ F), (wprod_fits W bld n _ _ F), (wfig_list_ok W bld n _ _ F). cbn [bind].
      destruct (has_uniform_stride sh st) as [s|]; [|reflexivity]. destruct (Nat.eqb_spec s 1) as [->|]; reflexivity.
    Qed.

    Lemma wflatiter_ok n (h : heap T) a : fits W n (a_shape a) (a_stride a) -> wflatiter W bld h a = nd_flatiter h a.
    Proof. intros F. unfold wflatiter, nd_flatiter. now rewrite (wfig_list_ok W bld n). Qed.
    Lemma wvalue_ok n (h : heap T) a : fits W n (a_shape a) (a_stride a) -> wvalue W bld h a = nd_value h a.
    Proof. intros F. unfold wvalue, nd_value. now rewrite (wprod_fits W bld n _ _ F). Qed.
    Lemma wequal_ok n m eqb (h : heap T) a b : fits W n (a_shape a) (a_stride a) -> fits W m (a_shape b) (a_stride b) -> wequal W bld eqb h a b = nd_eq eqb h a b.
    Proof. intros F G. unfold wequal, nd_eq. now rewrite (wfig_list_ok W bld n), (wfig_list_ok W bld m). Qed.

    Lemma wclone_data_ok n (h : heap T) a : fits W n (a_shape a) (a_stride a) -> wclone_data W bld h a = clone_data h a.
    Proof.
      intros F. unfold wclone_data, clone_data, wclone_strided, clone_strided. destruct (f_contig (a_fl a)); [reflexivity|]. rewrite (wcollapse_ok n _ _ F). cbn [bind].
      destruct (collapse (a_shape a) (a_stride a)) as [sh st] eqn:E. pose proof (collapse_fits _ _ _ _ _ _ F E) as F'. destruct st as [|s st]; [reflexivity|].
      rewrite (wprod_fits W bld n _ _ F). cbn [bind]. now rewrite (wfig_list_ok W bld n _ _ F'), (wfig_list_ok W bld n _ _ (fits_init _ _ _ _ F')).
    Qed.
    Lemma wclone_ok n (h : heap T) a : fits W n (a_shape a) (a_stride a) -> wclone W bld h a = nd_clone h a.
    Proof.
      intros F. unfold wclone, nd_clone. rewrite (wclone_data_ok n) by exact F. apply bind_ext. intros d _. apply wfrom_buffer_ok. split; [apply pos_prod, F|apply F].
    Qed.
    Lemma wflatten_ok n (h : heap T) a : fits W n (a_shape a) (a_stride a) -> wflatten W bld h a = nd_flatten h a.
    Proof.
      intros F. unfold wflatten, nd_flatten. rewrite (wclone_data_ok n) by exact F. apply bind_ext. intros d _. rewrite (wprod_fits W bld n _ _ F). cbn [bind]. apply wfrom_buffer_ok.
      cbn [prod fold_right]. rewrite Nat.mul_1_r. split; [apply pos_prod, F|apply F].
    Qed.

    Lemma wunary_ok n d (h : heap T) a : fits W n (a_shape a) (a_stride a) -> wunary W bld g d h a = nd_unary g d h a.
    Proof.
      intros F. unfold wunary, nd_unary. rewrite (wprod_fits W bld n _ _ F). cbn [bind alloc]. rewrite (wk_unary_ok n _ _ _ _ _ F). apply bind_ext. intros h' _.
      rewrite wfresh_ok by (split; [apply pos_prod, F|apply F]). reflexivity.
    Qed.
    Lemma wscalar_op_ok n d (h : heap T) a c : fits W n (a_shape a) (a_stride a) -> wscalar_op W bld f d h a c = nd_scalar_op f d h a c.
    Proof.
      intros F. unfold wscalar_op, nd_scalar_op. rewrite (wprod_fits W bld n _ _ F). cbn [bind alloc]. rewrite (wk_scalar_ok n _ _ _ _ _ _ F). apply bind_ext. intros h' _.
      rewrite wfresh_ok by (split; [apply pos_prod, F|apply F]). reflexivity.
    Qed.
    Lemma wbinary_ok n m d (h : heap T) a b h' s : fits W n (a_shape a) (a_stride a) -> fits W m (a_shape b) (a_stride b) -> nd_binary f d h a b = Ok (h', s) -> 0 < prod (a_shape s) < W ->
      wbinary W bld f d h a b = Ok (h', s).
    Proof.
      intros F G E P. unfold wbinary, nd_binary in *. apply bind_Ok_inv in E as (sh & B & E). rewrite B. cbn [bind]. apply bind_Ok_inv in E as (ls & L & E). rewrite L. cbn [bind].
      apply bind_Ok_inv in E as (rs & R & E). rewrite R. cbn [bind]. cbn [alloc] in *. apply bind_Ok_inv in E as (h2 & K & E). injection E as <- <-. cbn [fresh_arr a_shape] in P.
      apply broadcast_shapes_ok_iff in B. pose proof (join_shape_broadcastable_l _ _ _ B) as BL. pose proof (join_shape_broadcastable_r _ _ _ B) as BR.
      rewrite wprod_ok by exact P. cbn [bind]. pose proof (proj2 (pos_prod sh) (proj1 P)) as PS.
      rewrite (wk_binary_ok n m); [|eapply broadcast_fits; eauto; apply P|eapply broadcast_fits; eauto; apply P]. rewrite K. cbn [bind]. now rewrite wfresh_ok by exact P.
    Qed.
    Lemma wassign_scalar_ok n (h : heap T) a c : fits W n (a_shape a) (a_stride a) -> wassign_scalar W bld f h a c = nd_assign_scalar f h a c.
    Proof. intros F. unfold wassign_scalar, nd_assign_scalar. now rewrite (wk_scalar_ok n _ _ _ _ _ _ F). Qed.
    Lemma wassign_ok n m (h : heap T) a b h' : fits W n (a_shape a) (a_stride a) -> fits W m (a_shape b) (a_stride b) -> nd_assign f h a b = Ok h' -> wassign W bld f h a b = Ok h'.
    Proof.
      intros F G E. unfold wassign, nd_assign in *. apply bind_Ok_inv in E as (u & U & E). rewrite U. cbn [bind]. destruct (list_eqb (a_shape b) (a_shape a)) eqn:LE.
      - apply list_eqb_spec in LE. rewrite (wk_binary_ok n m); [exact E|exact F|now rewrite <- LE].
      - apply bind_Ok_inv in E as (b' & B & E). unfold wv_broadcast_to, nd_broadcast_to in *. apply bind_Ok_inv in B as (bsh & BS & B). rewrite BS. cbn [bind].
        apply bind_Ok_inv in B as (bst & BT & B). rewrite BT. cbn [bind].
        assert (BC : broadcastable (a_shape b) (a_shape a) /\ bsh = a_shape a).
        { unfold broadcast_shape in BS. destruct (Nat.ltb_spec (length (a_shape a)) (length (a_shape b))); [discriminate|]. apply bind_Ok_inv in BS as (u' & BO & BS).
          apply guard_true in BO. split; [|congruence]. split; [lia|]. apply bshape_ok_spec in BO; [exact BO|now apply skipn_sub_length]. }
        destruct BC as [BC ->]. pose proof (broadcast_fits _ _ _ _ _ _ G BC BT (fit_pos _ _ _ _ F) (fit_prod _ _ _ _ F)) as G'.
        rewrite (wrv_ok W bld m _ _ _ _ G'). cbn [bind]. injection B as <-. rewrite (wk_binary_ok n m); [exact E|exact F|exact G'].
    Qed.

    Lemma ld_word (h : heap T) p o v : ld h (padd p o) = Ok v -> (forall b l, nth_error h b = Some (Some l) -> 2 * length l <= W) -> o < W.
    Proof.
      intros E S. unfold ld, load in E. cbn [padd fst snd] in E. destruct (nth_error h (fst p)) as [[l|]|] eqn:N; try discriminate. apply S in N.
      destruct (nth_error l (snd p + o)) eqn:Q; [|discriminate]. assert (snd p + o < length l) by (apply nth_error_Some; congruence). lia.
    Qed.
    Lemma st_word (h : heap T) p o v h' : st h (padd p o) v = Ok h' -> (forall b l, nth_error h b = Some (Some l) -> 2 * length l <= W) -> o < W.
    Proof.
      intros E S. unfold st, store in E. cbn [padd fst snd] in E. destruct (nth_error h (fst p)) as [[l|]|] eqn:N; try discriminate. apply S in N.
      destruct (upd l (snd p + o) v) eqn:Q; [|discriminate]. apply upd_lt in Q. lia.
    Qed.

    Lemma windex_ok (h : heap T) a idx v : (forall b l, nth_error h b = Some (Some l) -> 2 * length l <= W) -> nd_index h a idx = Ok v -> windex W bld h a idx = Ok v.
    Proof.
      intros S E. unfold windex, nd_index in *. change (@index_offset idx (a_stride a)) with (dot idx (a_stride a)) in E. cbv zeta in E. apply bind_Ok_inv in E as (u & -> & E). cbn [bind].
      apply bind_Ok_inv in E as (u' & G & E). rewrite woffset_ok by (eapply ld_word; eauto). cbn [bind]. rewrite Nat.add_0_l, G. exact E.
    Qed.
    Lemma windex_set_ok (h : heap T) a idx v h' : (forall b l, nth_error h b = Some (Some l) -> 2 * length l <= W) -> nd_index_set h a idx v = Ok h' -> windex_set W bld h a idx v = Ok h'.
    Proof.
      intros S E. unfold windex_set, nd_index_set in *. change (@index_offset idx (a_stride a)) with (dot idx (a_stride a)) in E. cbv zeta in E. apply bind_Ok_inv in E as (u & -> & E). cbn [bind].
      apply bind_Ok_inv in E as (u' & G & E). rewrite woffset_ok by (eapply st_word; eauto). cbn [bind]. rewrite Nat.add_0_l, G. exact E.
    Qed.

    Lemma wreduce_ok n d (h : heap T) a : 1 < W -> fits W n (a_shape a) (a_stride a) -> wreduce W bld r d h a = nd_reduce r d h a.
    Proof. intros W1 F. unfold wreduce, nd_reduce. rewrite (wk_reduce_ok n _ _ _ _ _ F). apply bind_ext. intros v _. apply wfull_room. cbn. lia. Qed.

    Lemma wrss_ok mask : forall sh s nsh nst, length mask = length sh -> pos sh -> rss_go mask sh = (s, nsh, nst) -> s < W ->
      wrss_go W bld mask sh = Ok (s, nsh, nst) /\ 0 < s /\ Forall (fun x => x <= s) nst.
    Proof.
      induction mask as [|m mask IH]; intros [|n sh] s nsh nst L P E B; try discriminate; cbn [rss_go wrss_go] in *.
      - injection E as <- <- <-. repeat split; [lia|constructor].
      - destruct (rss_go mask sh) as [[s' nsh'] nst'] eqn:E'. injection L as L. inversion P; subst. destruct m.
        + injection E as <- <- <-. destruct (IH _ _ _ _ L H2 E' B) as (-> & Q & F). cbn [bind]. split; [reflexivity|]. split; [exact Q|]. constructor; [lia|exact F].
        + injection E as <- <- <-. assert (B' : s' < W) by nia. destruct (IH _ _ _ _ L H2 E' B') as (-> & Q & F). cbn [bind]. rewrite word_ok by exact B. split; [reflexivity|]. split; [nia|].
          constructor; [nia|]. eapply Forall_impl; [|exact F]. intros x X. cbn beta in X. nia.
    Qed.
    Lemma mask_go_len nd axes : forall mask mask', mask_go nd axes mask = Ok mask' -> length mask' = length mask.
    Proof.
      induction axes as [|ax axes IH]; intros mask mask' E; cbn [mask_go] in E; [congruence|]. apply bind_Ok_inv in E as (k & _ & E). apply bind_Ok_inv in E as (b & _ & E).
      destruct b; [discriminate|]. apply bind_Ok_inv in E as (m1 & V & E). apply IH in E. rewrite E. unfold vset in V. destruct (upd mask k true) eqn:U; [|discriminate]. injection V as <-.
      now apply upd_length in U.
    Qed.
    Lemma wreduced_ok n axes sh st osh mst : fits W n sh st -> reduced_shape_and_stride axes sh = Ok (osh, mst) -> 2 * prod osh <= W ->
      wreduced W bld axes sh = Ok (osh, mst) /\ fits W (prod osh) sh mst /\ 0 < prod osh < W.
    Proof.
      intros F E B. unfold wreduced, reduced_shape_and_stride in *. apply bind_Ok_inv in E as (mask & M & E). rewrite M. cbn [bind]. apply bind_Ok_inv in E as (c & C & E). rewrite C. cbn [bind].
      destruct (rss_go mask sh) as [[s nsh] nst] eqn:R. injection E as -> ->. pose proof (mask_go_len _ _ _ _ M) as L. rewrite repeat_length in L.
      destruct (rss_go_spec _ _ _ _ _ L R) as (-> & K & LN & D). pose proof (fits_n _ _ _ _ F) as NW.
      assert (PO : 0 < prod osh). { rewrite K. clear - F L. pose proof (fit_pos _ _ _ _ F) as P. clear F. revert mask L. induction P as [|d sh D P IH]; intros [|m mask] L; cbn [keep] in *; try discriminate; [cbn; lia|].
        injection L as L. specialize (IH mask L). destruct m; [exact IH|]. rewrite prod_cons. nia. }
      destruct (wrss_ok mask sh _ _ _ L (fit_pos _ _ _ _ F) R) as (-> & _ & FS); [lia|]. cbn [bind]. split; [reflexivity|]. split; [|lia].
      constructor; auto; try apply F.
      - intros idx I. rewrite D by now apply in_range_length. apply rank_lt. rewrite K. now apply keep_in_range.
      - eapply Forall_impl; [|exact FS]. intros x X. cbn beta in X. lia.
    Qed.
    Lemma wreduce_along_ok n d (h : heap T) a axes h' s : fits W n (a_shape a) (a_stride a) -> nd_reduce_along r d h a axes = Ok (h', s) -> 2 * prod (a_shape s) <= W ->
      wreduce_along W bld r d h a axes = Ok (h', s).
    Proof.
      intros F E B. unfold wreduce_along, nd_reduce_along in *. apply bind_Ok_inv in E as ((osh & mst) & R & E). destruct (collapse (a_shape a) mst) as [msh mst'] eqn:C.
      apply bind_Ok_inv in E as (js & J & E). apply bind_Ok_inv in E as (is & I & E). apply bind_Ok_inv in E as (out & O & E). assert (osh = a_shape s) by (injection E as <- <-; reflexivity). subst osh.
      destruct (wreduced_ok _ _ _ _ _ _ F R B) as (-> & FM & P). cbn [bind]. rewrite (wcollapse_ok _ _ _ FM), C. cbn [bind]. rewrite wprod_ok by exact P. cbn [bind].
      rewrite (wfig_list_ok W bld _ _ _ (collapse_fits _ _ _ _ _ _ FM C)), J. cbn [bind]. rewrite (wfig_list_ok W bld _ _ _ F), I. cbn [bind]. rewrite O. cbn [bind].
      rewrite wfrom_buffer_ok by exact P. exact E.
    Qed.
  End Ops.
End Fit.

(** ** Preparing an einsum *)
Section Prepare.
  Variable W : nat.
  Variable bld : build.

  Definition top (sh st : list nat) : nat := dot (map pred sh) st.

  Lemma sum_in x l : In x l -> x <= list_sum l.
  Proof. induction l as [|y l IH]; [intros []|]. cbn [list_sum fold_right]. intros [->|I]; [lia|]. apply IH in I. unfold list_sum in I. lia. Qed.

  Lemma skipn_cons_nth {A} (l : list A) k x : nth_error l k = Some x -> skipn k l = x :: skipn (S k) l.
  Proof. revert k. induction l as [|y l IH]; intros [|k] E; cbn [nth_error] in E; try discriminate; [injection E as ->; reflexivity|]. now apply IH. Qed.
  Lemma vget_some {A} (l : list A) k x : vget l k = Ok x -> nth_error l k = Some x.
  Proof. unfold vget. destruct (nth_error l k); congruence. Qed.

  Lemma upd_sum l : forall k old s l', nth_error l k = Some old -> upd l k (old + s) = Some l' -> list_sum l' = list_sum l + s /\ length l' = length l.
  Proof.
    induction l as [|x l IH]; intros [|k] old s l' N U; cbn [nth_error upd] in *; try discriminate.
    - injection N as ->. injection U as <-. cbn [list_sum fold_right length]. split; [lia|reflexivity].
    - destruct (upd l k (old + s)) as [m|] eqn:E; [|discriminate]. injection U as <-. destruct (IH _ _ _ _ N E) as [A B]. unfold list_sum in *. cbn [fold_right length]. split; lia.
  Qed.
  Lemma upd_top sh : forall l k old s d l', nth_error l k = Some old -> upd l k (old + s) = Some l' -> nth_error sh k = Some d -> top sh l' = top sh l + pred d * s.
  Proof.
    unfold top. induction sh as [|n sh IH]; intros [|x l] [|k] old s d l' N U D; cbn [nth_error upd] in *; try discriminate.
    - injection N as ->. injection U as <-. injection D as ->. cbn [map dot]. lia.
    - destruct (upd l k (old + s)) as [m|] eqn:E; [|discriminate]. injection U as <-. cbn [map dot]. rewrite (IH _ _ _ _ _ _ N E D). lia.
  Qed.
  Lemma vset_upd {A} (l : list A) k x l' : vset l k x = Ok l' -> upd l k x = Some l'.
  Proof. unfold vset. destruct (upd l k x); congruence. Qed.
  Lemma list_sum_skipn st k s : nth_error st k = Some s -> list_sum (skipn k st) = s + list_sum (skipn (S k) st).
  Proof. intros N. rewrite (skipn_cons_nth _ _ _ N). reflexivity. Qed.
  Lemma top_snoc sh st d s : length st = length sh -> top (sh ++ [d]) (st ++ [s]) = top sh st + pred d * s.
  Proof. intros L. unfold top. rewrite map_app. rewrite dot_app by now rewrite map_length. cbn [map dot]. lia. Qed.
  Lemma sum_snoc l s : list_sum (l ++ [s]) = list_sum l + s.
  Proof. rewrite list_sum_app. cbn. lia. Qed.
  Lemma prod_snoc l d : prod (l ++ [d]) = prod l * d.
  Proof. rewrite prod_app. cbn [prod fold_right]. lia. Qed.

  Lemma wrse_room labels out sh stride n : forall idim nsh nst r, rse_go labels out sh stride idim n nsh nst = Ok r ->
    list_sum nst + list_sum (skipn idim stride) < W -> wrse_go W bld labels out sh stride idim n nsh nst = Ok r.
  Proof.
    induction n as [|n IH]; intros idim nsh nst r E B; cbn [rse_go wrse_go] in *; [exact E|].
    apply bind_Ok_inv in E as (label & -> & E). cbn [bind]. destruct (label =? 0)%Z; [discriminate|]. destruct (position out label) as [ax|]; [|exact E].
    apply bind_Ok_inv in E as (d & -> & E). cbn [bind]. apply bind_Ok_inv in E as (nsh1 & -> & E). cbn [bind]. apply bind_Ok_inv in E as (s & ES & E). rewrite ES. cbn [bind].
    apply bind_Ok_inv in E as (old & EO & E). rewrite EO. cbn [bind]. apply bind_Ok_inv in E as (nst1 & EU & E). apply vget_some in ES, EO. rewrite (list_sum_skipn _ _ _ ES) in B.
    destruct (upd_sum _ _ _ _ _ EO (vset_upd _ _ _ _ EU)) as [S1 _]. pose proof (sum_in old nst (nth_error_In _ _ EO)). rewrite word_ok by lia. cbn [bind]. rewrite EU. cbn [bind]. apply IH; [exact E|lia].
  Qed.

  Lemma wmerge_room labels shape stride n : forall axis cmap nsh nst cmap' nsh' nst', merge_go labels shape stride axis n cmap nsh nst = Ok (cmap', nsh', nst') ->
    length nst = length nsh -> pos nsh -> pos shape -> axis + n = length shape -> list_sum nst + list_sum (skipn axis stride) < W ->
    wmerge_go W bld labels shape stride axis n cmap nsh nst = Ok (cmap', nsh', nst') /\ length nst' = length nsh' /\ pos nsh' /\
    list_sum nst' <= list_sum nst + list_sum (skipn axis stride) /\ top nsh' nst' <= top nsh nst + top (skipn axis shape) (skipn axis stride) /\
    prod nsh' <= prod nsh * prod (skipn axis shape).
  Proof.
    induction n as [|n IH]; intros axis cmap nsh nst cmap' nsh' nst' E L P PS A B; cbn [merge_go wmerge_go] in *.
    - injection E as <- <- <-. split; [reflexivity|]. split; [exact L|]. split; [exact P|]. split; [lia|]. split; [lia|]. rewrite skipn_all2 by lia. cbn. lia.
    - apply bind_Ok_inv in E as (label & -> & E). cbn [bind]. apply bind_Ok_inv in E as (d & ED & E). rewrite ED. cbn [bind]. apply bind_Ok_inv in E as (s & ES & E). rewrite ES. cbn [bind].
      apply vget_some in ED, ES. rewrite (list_sum_skipn _ _ _ ES) in *. rewrite (skipn_cons_nth _ _ _ ED), (skipn_cons_nth _ _ _ ES).
      change (top (d :: skipn (S axis) shape) (s :: skipn (S axis) stride)) with (pred d * s + top (skipn (S axis) shape) (skipn (S axis) stride)). rewrite prod_cons.
      assert (PD : 0 < d) by (apply (proj1 (Forall_forall _ _) PS); eapply nth_error_In; eauto).
      destruct (0 <=? label)%Z.
      + apply IH in E; auto; [|rewrite !app_length; cbn; lia|apply Forall_app; split; [exact P|now constructor]|lia|rewrite sum_snoc; lia].
        destruct E as (-> & L' & P' & S' & T' & Q'). rewrite sum_snoc in S'. rewrite top_snoc in T' by exact L. rewrite prod_snoc in Q'. repeat split; auto; [lia|lia|nia].
      + apply bind_Ok_inv in E as (c & -> & E). cbn [bind]. destruct c as [i|]; [|discriminate]. apply bind_Ok_inv in E as (old & EO & E). rewrite EO. cbn [bind].
        apply bind_Ok_inv in E as (nst1 & EU & E). apply bind_Ok_inv in E as (d' & ED' & E). apply bind_Ok_inv in E as (u & G & E). pose proof G as G'. apply guard_true in G'. apply Nat.eqb_eq in G'. subst d'.
        apply vget_some in EO. pose proof (vset_upd _ _ _ _ EU) as U. destruct (upd_sum _ _ _ _ _ EO U) as [S1 L1]. pose proof (upd_top _ _ _ _ _ _ _ EO U (vget_some _ _ _ ED')) as T1.
        pose proof (sum_in old nst (nth_error_In _ _ EO)). rewrite word_ok by lia. cbn [bind]. rewrite EU. cbn [bind]. rewrite ED'. cbn [bind]. rewrite G. cbn [bind].
        apply IH in E; auto; [|lia|lia|lia]. destruct E as (-> & L' & P' & S' & T' & Q'). repeat split; auto; [lia|lia|].
        etransitivity; [exact Q'|]. assert (prod (skipn (S axis) shape) <= d * prod (skipn (S axis) shape)) by nia. nia.
  Qed.

  (** what flags and lengths need *)
  Lemma wuniform_lite sh : forall st, Forall2 (fun d s => d * s < W) sh st -> forall s, wuniform_go W bld s sh st = Ok (has_uniform_go s sh st).
  Proof.
    induction 1 as [|d s' sh st D F IH]; intros s; [reflexivity|]. cbn [wuniform_go has_uniform_go]. destruct (s =? 0); cbn [negb andb]; [apply IH|]. rewrite word_ok by exact D. cbn [bind].
    destruct (s =? d * s'); cbn [negb]; [apply IH|reflexivity].
  Qed.
  Lemma wrv_lite m a sh st : Forall2 (fun d s => d * s < W) sh st -> 0 < prod sh < W -> wreshaped_view W bld m a sh st = Ok (reshaped_view m a sh st).
  Proof.
    intros F P. unfold wreshaped_view, reshaped_view, wflags, update_flags, wuniform, has_uniform_stride.
    destruct F as [|d s sh st D F]; [|rewrite (wuniform_lite _ _ F)]; cbn [bind]; (destruct m; [|reflexivity]); rewrite wprod_ok by exact P; reflexivity.
  Qed.
  Lemma top_lite n sh : forall st, length st = length sh -> pos sh -> top sh st < n -> 2 * n <= W -> list_sum st < W -> Forall2 (fun d s => d * s < W) sh st.
  Proof.
    induction sh as [|d sh IH]; intros [|s st] L P T H SM; cbn [length] in *; try discriminate; constructor; inversion P; subst; unfold top in *; cbn [map dot list_sum fold_right] in *; unfold list_sum in *.
    - destruct d as [|[|d]]; cbn [pred] in T; [lia|lia|]. assert (s <= S d * s) by lia. replace (S (S d) * s) with (S d * s + s) by lia. lia.
    - apply IH; auto; lia.
  Qed.
  Lemma fits_top n sh st : fits W n sh st -> top sh st < n.
  Proof.
    intros F. apply (fit_in _ _ _ _ F). pose proof (fit_pos _ _ _ _ F) as P. clear F. induction P; cbn [map]; constructor; auto. lia.
  Qed.

  Lemma wreshape_operand_ok n a labels r : fits W n (a_shape a) (a_stride a) -> list_sum (a_stride a) < W -> reshape_operand a labels = Ok r ->
    wreshape_operand W bld a labels = Ok r /\ list_sum (snd r) < W.
  Proof.
    intros F S E. unfold wreshape_operand, reshape_operand in *. destruct (forallb _ labels).
    - rewrite (wrv_ok W bld n _ _ _ _ F). cbn [bind]. injection E as <-. auto.
    - apply bind_Ok_inv in E as (((cmap & nsh) & nst) & M & E). apply bind_Ok_inv in E as (labels' & R & E). injection E as <-.
      destruct (wmerge_room _ _ _ _ _ _ _ _ _ _ _ M) as (-> & L & P & S' & T & Q); auto; [constructor|apply F|]. cbn [bind]. rewrite R. cbn [bind].
      cbn [skipn] in S', T, Q. change (prod []) with 1 in Q. change (list_sum []) with 0 in S'. change (top [] []) with 0 in T. pose proof (fits_top _ _ _ F). pose proof (fit_prod _ _ _ _ F).
      rewrite wrv_lite; [cbn [bind snd]; split; [reflexivity|lia]| |].
      + apply (top_lite n); auto; [lia|apply F|lia].
      + pose proof (proj1 (pos_prod _) P). lia.
  Qed.
  Lemma wstride_sum_ok labels stride label n : forall index acc r, stride_sum labels stride label index n acc = Ok r -> acc + list_sum (skipn index stride) < W ->
    wstride_sum W bld labels stride label index n acc = Ok r.
  Proof.
    induction n as [|n IH]; intros index acc r E B; cbn [stride_sum wstride_sum] in *; [exact E|]. apply bind_Ok_inv in E as (l & -> & E). cbn [bind].
    apply bind_Ok_inv in E as (acc' & A & E). destruct (label =? l)%Z.
    - apply bind_Ok_inv in A as (s & ES & A). injection A as <-. rewrite ES. cbn [bind]. apply vget_some in ES. rewrite (list_sum_skipn _ _ _ ES) in B. rewrite word_ok by lia. cbn [bind]. apply IH; [exact E|lia].
    - injection A as <-. cbn [bind]. apply IH; [exact E|]. clear - B. enough (list_sum (skipn (S index) stride) <= list_sum (skipn index stride)) by lia. clear.
      revert index. induction stride as [|x l IH]; intros [|index]; cbn [skipn list_sum fold_right]; try lia; first [apply IH|unfold list_sum; lia].
  Qed.
  Lemma woperand_strides_ok labels stride iter r : operand_strides labels stride iter = Ok r -> list_sum stride < W -> woperand_strides W bld labels stride iter = Ok r.
  Proof.
    intros E B. unfold woperand_strides, operand_strides in *. revert r E. induction iter as [|l iter IH]; intros r E; cbn [mapM] in *; [exact E|].
    apply bind_Ok_inv in E as (x & X & E). apply bind_Ok_inv in E as (xs & XS & E). destruct (l =? 0)%Z; [discriminate|]. rewrite (wstride_sum_ok _ _ _ _ _ _ _ X) by exact B. cbn [bind].
    rewrite (IH _ XS). exact E.
  Qed.

  Definition snug (a : arr) : Prop := exists n, fits W n (a_shape a) (a_stride a) /\ list_sum (a_stride a) < W.
  Lemma wall_strides_ok iter ops : Forall snug ops -> forall labels r, all_strides ops labels iter = Ok r -> wall_strides W bld ops labels iter = Ok r.
  Proof.
    induction 1 as [|a ops (n & F & S) FO IH]; intros [|l labels] r E; cbn [all_strides wall_strides] in *; try exact E.
    apply bind_Ok_inv in E as ((l' & st) & R & E). destruct (wreshape_operand_ok n a l _ F S R) as (-> & S'). cbn [bind snd] in *.
    apply bind_Ok_inv in E as (s & OS & E). rewrite (woperand_strides_ok _ _ _ _ OS S'). cbn [bind]. apply bind_Ok_inv in E as (r' & A & E). rewrite (IH _ _ A). exact E.
  Qed.

  Lemma wprepare_ok ops subs out strides ish osh : Forall snug ops -> prepare_einsum ops subs out = Ok (strides, ish, osh) -> 0 < prod osh < W ->
    wprepare W bld ops subs out = Ok (strides, ish, osh).
  Proof.
    intros F E P. unfold wprepare, prepare_einsum in *. apply bind_Ok_inv in E as (u & -> & E). cbn [bind]. apply bind_Ok_inv in E as ((((labels & counts) & dims) & mbd) & -> & E). cbn [bind].
    cbv zeta in *. apply bind_Ok_inv in E as (outl & -> & E). cbn [bind]. apply bind_Ok_inv in E as (u1 & R & E).
    assert ((match ops, labels ++ repeat (repeat 0%Z MAX_DIMS) (length ops - length labels) with
             | [a], l :: _ => _ <- wrse_go W bld l outl (a_shape a) (a_stride a) 0 (length (a_shape a)) (repeat 0 (length outl)) (repeat 0 (length outl)) ;; Ok tt
             | _, _ => Ok tt end) = Ok u1) as ->.
    { destruct ops as [|a [|b ops]]; try exact R. destruct (labels ++ _) as [|l ls]; [exact R|]. apply bind_Ok_inv in R as (x & R & Q). unfold reshape_for_einsum in R. inversion F as [|? ? (n & FA & S) _]; subst.
      rewrite (wrse_room _ _ _ _ _ _ _ _ _ R); [exact Q|]. cbn [skipn]. replace (list_sum (repeat 0 (length outl))) with 0; [exact S|]. clear. induction (length outl); [reflexivity|exact IHn]. }
    cbn [bind]. apply bind_Ok_inv in E as (extra & -> & E). cbn [bind]. apply bind_Ok_inv in E as (tmp & T & E). rewrite (wall_strides_ok _ _ F _ _ T). cbn [bind].
    assert (osh = map dims outl) as ->.
    { apply bind_Ok_inv in E as (o & _ & E). destruct o; [apply bind_Ok_inv in E as (s' & _ & E); apply bind_Ok_inv in E as (sh' & _ & E)|]; congruence. }
    rewrite wstrides_ok by lia. cbn [bind]. rewrite reshape_strides_1. exact E.
  Qed.
End Prepare.

(** ** The loops of an einsum *)
Section Loops.
  Variable W : nat.
  Variable bld : build.
  Context {T : Type}.
  Variable zero one : T.
  Variable add mul : T -> T -> res T.
  Variable fma : T -> T -> T -> res T.

  Definition small (h : heap T) : Prop := forall b l, nth_error h b = Some (Some l) -> 2 * length l <= W.
  Definition near (p : ptr) : Prop := snd p < W.

  Lemma ld_near h p v : ld h p = Ok v -> small h -> near p.
  Proof.
    intros E S. unfold ld, load in E. destruct (nth_error h (fst p)) as [[l|]|] eqn:N; try discriminate. apply S in N.
    destruct (nth_error l (snd p)) eqn:Q; [|discriminate]. assert (snd p < length l) by (apply nth_error_Some; congruence). unfold near. lia.
  Qed.
  Lemma st_small h p v h' : st h p v = Ok h' -> small h -> small h' /\ near p.
  Proof.
    intros E S. unfold st, store in E. destruct (nth_error h (fst p)) as [[l|]|] eqn:N; try discriminate. pose proof (S _ _ N) as B.
    destruct (upd l (snd p) v) as [l1|] eqn:Q; [|discriminate]. destruct (upd h (fst p) (Some l1)) as [h1|] eqn:U; [|discriminate]. injection E as <-. pose proof (upd_lt _ _ _ _ Q) as LT. split; [|unfold near; lia].
    intros b m M. pose proof (upd_nth_error _ _ _ _ b U) as X. rewrite M in X. destruct (b =? fst p); [|eapply S; eauto]. injection X as ->. rewrite (upd_length _ _ _ _ Q). exact B.
  Qed.
  Lemma near_add p o : near (padd p o) -> near p /\ o < W.
  Proof. unfold near, padd. cbn [snd]. lia. Qed.

  Lemma two_near p q : near p -> near q -> Forall near [p; q].
  Proof. intros A B. constructor; [exact A|]. constructor; [exact B|constructor]. Qed.

  (** what a run of a kernel says *)
  Definition fine (w x : res (heap T)) (ps : list ptr) (dst : ptr) : Prop := forall h', x = Ok h' -> w = Ok h' /\ small h' /\ Forall near ps /\ near dst.

  Lemma add_to_fine h dst v h' : add_to add h dst v = Ok h' -> small h -> small h' /\ near dst.
  Proof. intros E S. unfold add_to in E. apply bind_Ok_inv in E as (x & _ & E). apply bind_Ok_inv in E as (y & _ & E). eapply st_small; eauto. Qed.

  Lemma wprod_at_ok h ps : forall ss k acc v, small h -> length ps <= length ss -> prod_at mul h ps ss k acc = Ok v -> wprod_at W bld mul h ps ss k acc = Ok v /\ Forall near ps.
  Proof.
    induction ps as [|p ps IH]; intros [|s ss] k acc v S L E; cbn [prod_at wprod_at length] in *; try lia; [split; [exact E|constructor]|split; [exact E|constructor]|].
    apply bind_Ok_inv in E as (x & X & E). destruct (near_add _ _ (ld_near _ _ _ X S)) as [N O]. rewrite word_ok by exact O. cbn [bind]. rewrite X. cbn [bind].
    apply bind_Ok_inv in E as (acc' & A & E). rewrite A. cbn [bind]. destruct (IH ss k acc' v S ltac:(lia) E) as [-> F]. split; [reflexivity|now constructor].
  Qed.

  Lemma wsop_generic_go_ok ps ss dst ds k : length ps <= length ss -> forall h h', small h -> sop_generic_go one add mul h ps ss dst ds k = Ok h' ->
    wsop_generic_go W bld one add mul h ps ss dst ds k = Ok h' /\ small h' /\ (0 < k -> Forall near ps /\ near dst).
  Proof.
    intros L. induction k as [|k IH]; intros h h' S E; cbn [sop_generic_go wsop_generic_go] in *; [injection E as <-; split; [reflexivity|]; split; [exact S|lia]|].
    apply bind_Ok_inv in E as (v & V & E). apply bind_Ok_inv in E as (h1 & A & E). destruct (wprod_at_ok _ _ _ _ _ _ S L V) as [-> F]. destruct (add_to_fine _ _ _ _ A S) as [S1 N].
    apply near_add in N as [N O]. rewrite word_ok by exact O. cbn [bind]. rewrite A. cbn [bind]. destruct (IH _ _ S1 E) as (-> & S' & _). auto.
  Qed.
  Lemma wsop_generic_ok h ps ss dst ds count : length ps <= length ss -> small h -> fine (wsop_generic W bld one add mul h ps ss dst ds count) (sop_generic one add mul h ps ss dst ds count) ps dst.
  Proof.
    intros L S h' E. unfold wsop_generic, sop_generic in *. apply bind_Ok_inv in E as (u & U & E). rewrite U. cbn [bind]. unfold uassert in U. destruct (Nat.ltb_spec 0 count); [|discriminate].
    destruct (wsop_generic_go_ok _ _ _ _ _ L _ _ S E) as (-> & S' & N). destruct (N H). repeat split; auto.
  Qed.

  Lemma wsop_out0_go_ok h ps ss k : small h -> length ps <= length ss -> forall sum v, sop_out0_go one add mul h ps ss k sum = Ok v ->
    wsop_out0_go W bld one add mul h ps ss k sum = Ok v /\ (0 < k -> Forall near ps).
  Proof.
    intros S L. induction k as [|k IH]; intros sum v E; cbn [sop_out0_go wsop_out0_go] in *; [split; [exact E|lia]|].
    apply bind_Ok_inv in E as (x & X & E). apply bind_Ok_inv in E as (s & A & E). destruct (wprod_at_ok _ _ _ _ _ _ S L X) as [-> F]. cbn [bind]. rewrite A. cbn [bind]. destruct (IH _ _ E) as [-> _]. auto.
  Qed.
  Lemma wsop_out0_ok h ps ss dst count : length ps <= length ss -> small h -> fine (wsop_out0 W bld zero one add mul h ps ss dst count) (sop_out0 zero one add mul h ps ss dst count) ps dst.
  Proof.
    intros L S h' E. unfold wsop_out0, sop_out0 in *. apply bind_Ok_inv in E as (u & U & E). rewrite U. cbn [bind]. unfold uassert in U. destruct (Nat.ltb_spec 0 count); [|discriminate].
    apply bind_Ok_inv in E as (s & V & E). destruct (wsop_out0_go_ok _ _ _ _ S L _ _ V) as [-> F]. cbn [bind]. destruct (add_to_fine _ _ _ _ E S) as [S' N]. repeat split; auto.
  Qed.

  (** the specialised kernels do no arithmetic on sizes *)
  Lemma muladd_small scalar count : forall h data dst h', small h -> muladd_go fma h scalar data dst count = Ok h' -> small h' /\ (0 < count -> near data /\ near dst).
  Proof.
    induction count as [|c IH]; intros h data dst h' S E; cbn [muladd_go] in E; [injection E as <-; split; [exact S|lia]|].
    apply bind_Ok_inv in E as (x & X & E). apply bind_Ok_inv in E as (y & _ & E). apply bind_Ok_inv in E as (v & _ & E). apply bind_Ok_inv in E as (h1 & A & E).
    destruct (st_small _ _ _ _ A S) as [S1 N]. destruct (IH _ _ _ _ S1 E) as [S' _]. split; [exact S'|]. intros _. split; [eapply ld_near; eauto|exact N].
  Qed.
  Lemma sop_muladd_ok h p0 p1 dst count : small h -> fine (sop_muladd fma h p0 p1 dst count) (sop_muladd fma h p0 p1 dst count) [p0; p1] dst.
  Proof.
    intros S h' E. split; [exact E|]. unfold sop_muladd in E. apply bind_Ok_inv in E as (u & U & E). unfold uassert in U. destruct (Nat.ltb_spec 0 count); [|discriminate].
    apply bind_Ok_inv in E as (x & X & E). destruct (muladd_small _ _ _ _ _ _ S E) as [S' N]. destruct (N H). split; [exact S'|]. split; [|assumption]. apply two_near; [eapply ld_near; eauto|assumption].
  Qed.
  Lemma fold_run_near h g count s : small h -> forall p acc v, fold_run (T:=T) g h p count s acc = Ok v -> 0 < count -> near p.
  Proof. intros S p acc v E C. destruct count; [lia|]. cbn [fold_run] in E. apply bind_Ok_inv in E as (x & X & _). eapply ld_near; eauto. Qed.
  Lemma sop_scaled_ok h p0 p1 dst count : small h -> fine (sop_scaled zero add fma h p0 p1 dst count) (sop_scaled zero add fma h p0 p1 dst count) [p0; p1] dst.
  Proof.
    intros S h' E. split; [exact E|]. unfold sop_scaled in E. apply bind_Ok_inv in E as (u & U & E). unfold uassert in U. destruct (Nat.ltb_spec 0 count); [|discriminate].
    apply bind_Ok_inv in E as (x & X & E). apply bind_Ok_inv in E as (sum & SM & E). apply bind_Ok_inv in E as (y & _ & E). apply bind_Ok_inv in E as (v & _ & E).
    destruct (st_small _ _ _ _ E S). split; [assumption|]. split; [|assumption]. apply two_near; [exact (ld_near _ _ _ X S)|exact (fold_run_near _ _ _ _ S _ _ _ SM H)].
  Qed.
  Lemma sop_111_go_small count : forall h p0 p1 dst h', small h -> sop_111_go add mul h p0 p1 dst count = Ok h' -> small h' /\ (0 < count -> near p0 /\ near p1 /\ near dst).
  Proof.
    induction count as [|c IH]; intros h p0 p1 dst h' S E; cbn [sop_111_go] in E; [injection E as <-; split; [exact S|lia]|].
    apply bind_Ok_inv in E as (x & X & E). apply bind_Ok_inv in E as (y & Y & E). apply bind_Ok_inv in E as (v & _ & E). apply bind_Ok_inv in E as (h1 & A & E).
    destruct (add_to_fine _ _ _ _ A S) as [S1 N]. destruct (IH _ _ _ _ _ S1 E) as [S' _]. split; [exact S'|]. intros _. split; [eapply ld_near; eauto|]. split; [eapply ld_near; eauto|exact N].
  Qed.
  Lemma dot_go_near h p0 s0 p1 s1 count sum v : small h -> dot_go add mul h p0 s0 p1 s1 count sum = Ok v -> 0 < count -> near p0 /\ near p1.
  Proof.
    intros S E C. destruct count; [lia|]. cbn [dot_go] in E. apply bind_Ok_inv in E as (x & X & E). apply bind_Ok_inv in E as (y & Y & _). split; eapply ld_near; eauto.
  Qed.

  Lemma wsop_two_ok h p0 s0 p1 s1 dst ds count : small h ->
    fine (wsop_two W bld zero one add mul fma h p0 s0 p1 s1 dst ds count) (sop_two zero one add mul fma h p0 s0 p1 s1 dst ds count) [p0; p1] dst.
  Proof.
    intros S. pose proof (sop_scaled_ok h p0 p1 dst count S) as A2. pose proof (sop_muladd_ok h p0 p1 dst count S) as A3.
    assert (SW : forall w x, fine w x [p1; p0] dst -> fine w x [p0; p1] dst).
    { intros w x F h' E. destruct (F h' E) as (E1 & E2 & N & E3). split; [exact E1|]. split; [exact E2|]. split; [apply two_near; [exact (Forall_inv (Forall_inv_tail N))|exact (Forall_inv N)]|exact E3]. }
    pose proof (SW _ _ (sop_scaled_ok h p1 p0 dst count S)) as A4. pose proof (SW _ _ (sop_muladd_ok h p1 p0 dst count S)) as A5.
    assert (A6 : fine (_ <- uassert (0 <? count) ;; strided_dot zero add mul h p0 1 p1 1 dst count) (_ <- uassert (0 <? count) ;; strided_dot zero add mul h p0 1 p1 1 dst count) [p0; p1] dst).
    { intros h' E. split; [exact E|]. apply bind_Ok_inv in E as (u & U & E). unfold uassert in U. destruct (Nat.ltb_spec 0 count); [|discriminate]. unfold strided_dot in E.
      apply bind_Ok_inv in E as (s & D & E). destruct (add_to_fine _ _ _ _ E S). destruct (dot_go_near _ _ _ _ _ _ _ _ S D H). split; [assumption|]. split; [now apply two_near|assumption]. }
    assert (A7 : fine (sop_111 add mul h p0 p1 dst count) (sop_111 add mul h p0 p1 dst count) [p0; p1] dst).
    { intros h' E. split; [exact E|]. unfold sop_111 in E. apply bind_Ok_inv in E as (u & U & E). unfold uassert in U. destruct (Nat.ltb_spec 0 count); [|discriminate].
      destruct (sop_111_go_small _ _ _ _ _ _ S E) as [S' N]. destruct (N H) as (? & ? & ?). split; [assumption|]. split; [now apply two_near|assumption]. }
    assert (A0 : fine (if ds =? 0 then wsop_out0 W bld zero one add mul h [p0; p1] [s0; s1] dst count else wsop_generic W bld one add mul h [p0; p1] [s0; s1] dst ds count)
      (if ds =? 0 then sop_out0 zero one add mul h [p0; p1] [s0; s1] dst count else sop_generic one add mul h [p0; p1] [s0; s1] dst ds count) [p0; p1] dst).
    { destruct (ds =? 0); [now apply wsop_out0_ok|now apply wsop_generic_ok]. }
    unfold wsop_two, sop_two. destruct (_ + _ + _) as [|[|[|[|[|[|[|[|?]]]]]]]]; assumption.
  Qed.
  Lemma wsop_slice_ok h ps ss dst ds count : length ps <= length ss -> small h -> fine (wsop_slice W bld zero one add mul h ps ss dst ds count) (sop_slice zero one add mul h ps ss dst ds count) ps dst.
  Proof. intros L S. unfold wsop_slice, sop_slice. destruct (ds =? 0); [now apply wsop_out0_ok|now apply wsop_generic_ok]. Qed.
  Lemma wsop_fixed_ok h ps ss dst ds count : length ps <= length ss -> small h -> fine (wsop_fixed W bld zero one add mul fma h ps ss dst ds count) (sop_fixed zero one add mul fma h ps ss dst ds count) ps dst.
  Proof.
    intros L S. pose proof (wsop_slice_ok h ps ss dst ds count L S) as D. unfold wsop_slice, sop_slice in D. unfold wsop_fixed, sop_fixed.
    destruct ps as [|p0 [|p1 [|p2 ps]]]; try exact D. destruct ss as [|s0 [|s1 [|s2 ss]]]; try exact D. now apply wsop_two_ok.
  Qed.

  (** a call through base pointers bounds the offsets *)
  Lemma padds_near bases : forall offs, length offs = length bases -> Forall near (padds bases offs) -> Forall (fun o => o < W) offs.
  Proof.
    induction bases as [|p bases IH]; intros [|o offs] L F; cbn [padds length] in *; try discriminate; [constructor|]. inversion F; subst. constructor; [now apply near_add in H1|]. apply IH; [lia|assumption].
  Qed.
  Lemma padds_length bases : forall offs, length offs = length bases -> length (padds bases offs) = length bases.
  Proof. induction bases as [|p bases IH]; intros [|o offs] L; cbn [padds length] in *; try discriminate; [reflexivity|]. now rewrite IH by lia. Qed.

  Lemma call_ok (wf xf : heap T -> list ptr -> list nat -> ptr -> nat -> nat -> res (heap T)) h bases dst offs inner count h' :
    (forall h ps ss dst ds count, length ps <= length ss -> small h -> fine (wf h ps ss dst ds count) (xf h ps ss dst ds count) ps dst) ->
    length offs = S (length bases) -> length inner = S (length bases) -> small h -> call_sop xf h bases dst offs inner count = Ok h' ->
    call_sop wf h bases dst offs inner count = Ok h' /\ small h' /\ Forall (fun o => o < W) offs.
  Proof.
    intros F LO LI S E. unfold call_sop in *. assert (L1 : length (firstn (length bases) offs) = length bases) by (rewrite firstn_length; lia).
    destruct (F h (padds bases (firstn (length bases) offs)) (firstn (length bases) inner) (padd dst (nth (length bases) offs 0)) (nth (length bases) inner 0) count) with (h' := h') as (W1 & S' & N & ND); auto.
    - rewrite padds_length by exact L1. rewrite firstn_length. lia.
    - split; [exact W1|]. split; [exact S'|]. rewrite <- (firstn_skipn (length bases) offs). apply Forall_app. split; [eapply padds_near; eauto|].
      assert (Q : nth_error offs (length bases) = Some (nth (length bases) offs 0)) by (apply nth_error_nth'; lia).
      rewrite (skipn_cons_nth _ _ _ Q). rewrite skipn_all2 by lia. constructor; [|constructor]. now apply near_add in ND.
  Qed.

  Lemma wscale_ok k l : Forall (fun o => o < W) (scale k l) -> wscale W bld k l = Ok (scale k l).
  Proof. unfold wscale, scale. induction l as [|x l IH]; intros F; [reflexivity|]. cbn [map mapM] in *. inversion F; subst. rewrite word_ok by assumption. cbn [bind]. now rewrite IH. Qed.
  Lemma wadd_lists_ok a : forall b, Forall (fun o => o < W) (add_lists a b) -> wadd_lists W bld a b = Ok (add_lists a b).
  Proof. induction a as [|x a IH]; intros [|y b] F; cbn [add_lists wadd_lists] in *; try reflexivity. inversion F; subst. rewrite word_ok by assumption. cbn [bind]. now rewrite IH. Qed.
  Lemma add_lists_l a : forall b, length a = length b -> Forall (fun o => o < W) (add_lists a b) -> Forall (fun o => o < W) a /\ Forall (fun o => o < W) b.
  Proof. induction a as [|x a IH]; intros [|y b] L F; cbn [add_lists length] in *; try discriminate; [split; constructor|]. inversion F; subst. destruct (IH b ltac:(lia) H2). split; constructor; auto; lia. Qed.
  Lemma add_lists_len a : forall b, length a = length b -> length (add_lists a b) = length a.
  Proof. induction a as [|x a IH]; intros [|y b] L; cbn [add_lists length] in *; try discriminate; [reflexivity|]. now rewrite IH by lia. Qed.

  Lemma for_each_ok {A} (wb xb : A -> heap T -> res (heap T)) l : (forall x h h', small h -> xb x h = Ok h' -> wb x h = Ok h' /\ small h') ->
    forall h h', small h -> for_each xb l h = Ok h' -> for_each wb l h = Ok h' /\ small h'.
  Proof.
    intros H. induction l as [|x l IH]; intros h h' S E; cbn [for_each] in *; [injection E as <-; auto|]. apply bind_Ok_inv in E as (h1 & X & E). destruct (H _ _ _ S X) as [-> S1]. cbn [bind]. now apply IH.
  Qed.

  Lemma w2labels_ok h bases d0 d1 n0 n1 dst h' : length d0 = S (length bases) -> length d1 = S (length bases) -> small h -> einsum_2labels zero one add mul fma h bases d0 d1 n0 n1 dst = Ok h' ->
    weinsum_2labels W bld zero one add mul fma h bases d0 d1 n0 n1 dst = Ok h' /\ small h'.
  Proof.
    intros L0 L1 S E. unfold weinsum_2labels, einsum_2labels in *. apply bind_Ok_inv in E as (u & -> & E). apply bind_Ok_inv in E as (u' & -> & E). cbn [bind].
    eapply for_each_ok; [|exact S|exact E]. intros i h0 h1 S0 X. cbn beta in *.
    destruct (call_ok (wsop_fixed W bld zero one add mul fma) (sop_fixed zero one add mul fma) h0 bases dst (scale i d1) d0 n0 h1) as (C & S1 & F); auto; [intros; now apply wsop_fixed_ok|unfold scale; now rewrite map_length|].
    rewrite (wscale_ok _ _ F). cbn [bind]. auto.
  Qed.
  Lemma w3labels_ok h bases d0 d1 d2 n0 n1 n2 dst h' : length d0 = S (length bases) -> length d1 = S (length bases) -> length d2 = S (length bases) -> small h ->
    einsum_3labels zero one add mul fma h bases d0 d1 d2 n0 n1 n2 dst = Ok h' -> weinsum_3labels W bld zero one add mul fma h bases d0 d1 d2 n0 n1 n2 dst = Ok h' /\ small h'.
  Proof.
    intros L0 L1 L2 S E. unfold weinsum_3labels, einsum_3labels in *. apply bind_Ok_inv in E as (u & -> & E). apply bind_Ok_inv in E as (u' & -> & E). apply bind_Ok_inv in E as (u'' & -> & E). cbn [bind].
    eapply for_each_ok; [|exact S|exact E]. intros i h0 h1 S0 X. cbn beta in *. eapply for_each_ok; [|exact S0|exact X]. intros j h2 h3 S2 Y. cbn beta in *.
    assert (LS : length (scale i d2) = length (scale j d1)) by (unfold scale; rewrite !map_length; lia).
    destruct (call_ok (wsop_fixed W bld zero one add mul fma) (sop_fixed zero one add mul fma) h2 bases dst (add_lists (scale i d2) (scale j d1)) d0 n0 h3) as (C & S1 & F); auto;
      [intros; now apply wsop_fixed_ok|rewrite add_lists_len by exact LS; unfold scale; now rewrite map_length|].
    destruct (add_lists_l _ _ LS F) as [F1 F2]. rewrite (wscale_ok _ _ F1), (wscale_ok _ _ F2). cbn [bind]. rewrite (wadd_lists_ok _ _ F). cbn [bind]. auto.
  Qed.

  (** the multi-operand generator *)
  Lemma wsub_lists_ok d : forall a b r, sub_lists a b d = Ok r -> Forall (fun o => o < W) a -> wsub_lists W bld a b d = Ok r /\ Forall (fun o => o < W) r.
  Proof.
    induction a as [|x a IH]; intros [|y b] r E F; cbn [sub_lists wsub_lists] in *; try (injection E as <-; split; [reflexivity|constructor]).
    apply bind_Ok_inv in E as (z & Z & E). apply bind_Ok_inv in E as (r' & R & E). injection E as <-. inversion F; subst. pose proof Z as Z'. unfold csub in Z'. destruct (Nat.ltb_spec x (y * d)); [discriminate|]. injection Z' as <-.
    rewrite word_ok by lia. cbn [bind]. rewrite wsub_le by lia. cbn [bind]. destruct (IH _ _ R H2) as [-> F']. split; [reflexivity|]. constructor; [lia|exact F'].
  Qed.
  Lemma wcarry_ok sh : forall st idx flat idx' flat' c, mfig_carry sh st idx flat = Ok (idx', flat', c) -> Forall (fun o => o < W) sh -> Forall (fun o => o < W) idx -> Forall (fun o => o < W) flat ->
    (c = false -> Forall (fun o => o < W) flat') -> wmfig_carry W bld sh st idx flat = Ok (idx', flat', c) /\ (c = true -> Forall (fun o => o < W) flat').
  Proof.
    induction sh as [|n sh IH]; intros [|s st] [|i idx] flat idx' flat' c E FS FI FF B; cbn [mfig_carry wmfig_carry] in *; try (injection E as <- <- <-; split; [reflexivity|auto]).
    inversion FS; subst. inversion FI; subst. apply bind_Ok_inv in E as (((idx1 & flat1) & c1) & R & E). destruct c1.
    - apply IH in R; auto; [|discriminate]. destruct R as (-> & F1). specialize (F1 eq_refl). cbn [bind]. apply bind_Ok_inv in E as (i' & I & E).
      assert (LI : i' < W). { unfold csub in I. destruct (i <? 1); [discriminate|]. injection I as <-. lia. }
      rewrite (wsub_ok W bld _ _ _ I LI). cbn [bind]. destruct (negb (i' =? 0)).
      + injection E as <- <- <-. rewrite wadd_lists_ok by now apply B. split; [reflexivity|discriminate].
      + apply bind_Ok_inv in E as (d & D & E). apply bind_Ok_inv in E as (f & SL & E). injection E as <- <- <-.
        assert (LD : d < W). { unfold csub in D. destruct (n <? 1); [discriminate|]. injection D as <-. lia. }
        rewrite (wsub_ok W bld _ _ _ D LD). cbn [bind]. destruct (wsub_lists_ok _ _ _ _ SL F1) as [-> F2]. split; [reflexivity|auto].
    - injection E as <- <- <-. apply IH in R; auto. destruct R as (-> & _). split; [reflexivity|discriminate].
  Qed.

  Lemma down_lt sh : forall idx, Forall (fun o => o < W) sh -> Forall (fun o => o < W) (down sh idx).
  Proof. unfold down. induction sh as [|n sh IH]; intros [|i idx] F; cbn [combine map]; try constructor; inversion F; subst; [cbn; lia|now apply IH]. Qed.

  Lemma wunspec_ok nops sh rows bases dst inner n0 : length rows = length sh -> Forall (fun r => length r = nops) rows -> nops = S (length bases) -> length inner = nops -> Forall (fun o => o < W) sh ->
    forall k idx h h', in_range idx sh -> rank idx sh + k = prod sh -> 0 < k -> small h -> unspec_go zero one add mul k (mfig_at nops sh rows 0 idx) h bases dst inner n0 = Ok h' ->
    wunspec_go W bld zero one add mul k (mfig_at nops sh rows 0 idx) h bases dst inner n0 = Ok h' /\ small h' /\ Forall (fun o => o < W) (lin nops rows idx).
  Proof.
    intros LR FR NB LI FS. induction k as [|k IH]; intros idx h h' R K PK S E; [lia|]. cbn [unspec_go wunspec_go] in *. change (m_flat (mfig_at nops sh rows 0 idx)) with (lin nops rows idx) in *.
    apply bind_Ok_inv in E as (h1 & C & E).
    destruct (call_ok (wsop_slice W bld zero one add mul) (sop_slice zero one add mul) h bases dst (lin nops rows idx) inner n0 h1) as (-> & S1 & F); auto;
      [intros; now apply wsop_slice_ok|rewrite lin_length; lia|lia|]. cbn [bind].
    apply bind_Ok_inv in E as (g' & G & E).
    assert (E0 : forall j, lin nops rows j = add_lists (repeat 0 nops) (lin nops rows j)).
    { intros j. rewrite <- (lin_length nops rows j) at 2. now rewrite add_lists_0. }
    unfold wmfig_increment, mfig_increment in *. cbn [mfig_at m_shape m_strides m_idx m_flat m_nops m_size m_iter] in *.
    destruct (mfig_carry_spec nops sh rows idx (repeat 0 nops) LR FR R (repeat_length _ _)) as [(Q & idx' & H & R' & KK)|(Q & H)].
    - rewrite <- !E0 in H. rewrite H in G. cbn [bind] in G. injection G as <-. change (mkMfig sh rows nops (prod sh) 0 (down sh idx') (lin nops rows idx')) with (mfig_at nops sh rows 0 idx') in E.
      destruct (IH idx' h1 h' R') as (W2 & S2 & F2); auto; [lia|lia|]. destruct (wcarry_ok _ _ _ _ _ _ _ H FS (down_lt sh idx FS) F (fun _ => F2)) as [-> _]. cbn [bind]. auto.
    - rewrite <- E0 in H. rewrite H in G. cbn [bind] in G. injection G as <-. assert (k = 0) by lia. subst k. cbn [unspec_go wunspec_go] in *. injection E as <-.
      destruct (wcarry_ok _ _ _ _ _ _ _ H FS (down_lt sh idx FS) F) as [-> _]; [discriminate|]. cbn [bind]. auto.
  Qed.

  Lemma dims_lt sh : 0 < prod sh < W -> Forall (fun o => o < W) sh.
  Proof.
    induction sh as [|n sh IH]; intros [P L]; [constructor|]. rewrite prod_cons in *. assert (1 <= prod sh) by nia. assert (1 <= n) by nia. constructor; [nia|]. apply IH. nia.
  Qed.
  Lemma wunspecialized_ok h bases strides ish dst h' : Forall (fun r => length r = S (length bases)) strides -> 0 < prod ish < W -> small h ->
    unspecialized zero one add mul h bases strides ish dst = Ok h' -> wunspecialized W bld zero one add mul h bases strides ish dst = Ok h' /\ small h'.
  Proof.
    intros F P SM E. unfold wunspecialized, unspecialized in *. destruct strides as [|inner strides], ish as [|n0 sh]; try discriminate. inversion F; subst. rewrite prod_cons in P.
    assert (P' : 0 < prod sh < W) by (clear - P; assert (1 <= n0) by nia; assert (1 <= prod sh) by nia; nia). unfold wmfig_from, mfig_from in *. apply bind_Ok_inv in E as (g & G & E). apply bind_Ok_inv in G as (u & U & G). rewrite U. cbn [bind]. apply guard_true in U. apply Nat.eqb_eq in U.
    apply bind_Ok_inv in G as (u1 & -> & G). cbn [bind]. apply bind_Ok_inv in G as (u2 & -> & G). cbn [bind]. rewrite wprod_ok by exact P'. cbn [bind]. injection G as <-. cbn [m_size] in E.
    assert (M : mkMfig sh strides (S (length bases)) (prod sh) 0 sh (0 :: repeat 0 (length bases)) = mfig_at (S (length bases)) sh strides 0 (repeat 0 (length sh))).
    { unfold mfig_at. rewrite down_zeros. f_equal. change (0 :: repeat 0 (length bases)) with (repeat 0 (S (length bases))). unfold lin. rewrite (repeat_0_map _ 0). apply map_ext. intros j. now rewrite dot_zeros. }
    change (repeat 0 (S (length bases))) with (0 :: repeat 0 (length bases)). rewrite M in *. destruct (wunspec_ok (S (length bases)) sh strides bases dst inner n0 U H2 eq_refl H1 (dims_lt _ P') (prod sh) (repeat 0 (length sh)) h h') as (-> & S' & _); auto;
      [apply in_range_zeros; lia|rewrite rank_zeros; reflexivity|exact (proj1 P')].
  Qed.
End Loops.

(** ** The tables of an einsum *)
Lemma all_strides_len iter ops : forall labels r, all_strides ops labels iter = Ok r -> length ops <= length labels -> length r = length ops.
Proof.
  induction ops as [|a ops IH]; intros [|l labels] r E L; cbn [all_strides length] in *; try (injection E as <-; reflexivity); [lia|].
  apply bind_Ok_inv in E as ((l' & st) & _ & E). apply bind_Ok_inv in E as (s & _ & E). apply bind_Ok_inv in E as (r' & A & E). injection E as <-. cbn [length]. f_equal. eapply IH; eauto. lia.
Qed.
Lemma permute_rows {A} (P : A -> Prop) (l : list A) ord r : permute_array l ord = Ok r -> Forall P l -> Forall P r /\ length r = length ord /\ length l = length ord.
Proof.
  intros E F. unfold permute_array in E. apply bind_Ok_inv in E as (u & G & E). apply guard_true in G. apply Nat.eqb_eq in G. rewrite G. clear G. split; [|split; [|reflexivity]].
  - revert r E. induction ord as [|k ord IH]; intros r E; cbn [mapM] in E; [injection E as <-; constructor|]. apply bind_Ok_inv in E as (x & X & E). apply bind_Ok_inv in E as (xs & XS & E). injection E as <-.
    constructor; [|now apply IH]. apply (proj1 (Forall_forall _ _) F). apply vget_some in X. eapply nth_error_In; eauto.
  - revert r E. induction ord as [|k ord IH]; intros r E; cbn [mapM] in E; [injection E as <-; reflexivity|]. apply bind_Ok_inv in E as (x & X & E). apply bind_Ok_inv in E as (xs & XS & E). injection E as <-.
    cbn [length]. f_equal. now apply IH.
Qed.
Lemma prepare_rows ops subs out strides ish osh : prepare_einsum ops subs out = Ok (strides, ish, osh) -> Forall (fun r => length r = S (length ops)) strides /\ length strides = length ish.
Proof.
  intros E. unfold prepare_einsum in E. apply bind_Ok_inv in E as (u & _ & E). apply bind_Ok_inv in E as ((((labels & counts) & dims) & mbd) & _ & E).
  cbv zeta in *. apply bind_Ok_inv in E as (outl & _ & E). apply bind_Ok_inv in E as (u1 & _ & E). apply bind_Ok_inv in E as (extra & _ & E). apply bind_Ok_inv in E as (tmp & T & E).
  apply all_strides_len in T; [|rewrite app_length, repeat_length; lia]. apply bind_Ok_inv in E as (o & _ & E).
  set (st := map _ (seq 0 _)) in *. assert (F : Forall (fun r => length r = S (length ops)) st).
  { unfold st. apply Forall_map, Forall_forall. intros i _. rewrite map_length, app_length. cbn [length]. lia. }
  assert (L : length st = length (map dims (outl ++ extra))) by (unfold st; now rewrite !map_length, seq_length).
  destruct o as [ord|].
  - apply bind_Ok_inv in E as (s' & P1 & E). apply bind_Ok_inv in E as (sh' & P2 & E). injection E as <- <- <-. destruct (permute_rows _ _ _ _ P1 F) as (F' & L1 & _).
    destruct (permute_rows (fun _ => True) _ _ _ P2) as (_ & L2 & _); [apply Forall_forall; auto|]. split; [exact F'|congruence].
  - injection E as <- <- <-. auto.
Qed.

Section Run.
  Variable W : nat.
  Variable bld : build.
  Context {T : Type}.
  Variable zero one : T.
  Variable add mul : T -> T -> res T.
  Variable fma : T -> T -> T -> res T.
  Local Notation small := (@small W T).

  Lemma wrun_ok h bases strides ish dst h' : Forall (fun r => length r = S (length bases)) strides -> length strides = length ish -> small h ->
    ((length bases = 1 \/ length bases = 2) /\ (length ish = 2 \/ length ish = 3)) \/ 0 < prod ish < W ->
    run_einsum zero one add mul fma h bases strides ish dst = Ok h' -> wrun_einsum W bld zero one add mul fma h bases strides ish dst = Ok h' /\ small h'.
  Proof.
    intros F L SM C E. unfold wrun_einsum, run_einsum in *.
    assert (U : 0 < prod ish < W -> unspecialized zero one add mul h bases strides ish dst = Ok h' -> wunspecialized W bld zero one add mul h bases strides ish dst = Ok h' /\ small h').
    { intros P E'. now apply wunspecialized_ok. }
    destruct ((length bases =? 1) || (length bases =? 2)) eqn:B.
    - destruct strides as [|d0 [|d1 [|d2 [|d3 st]]]], ish as [|n0 [|n1 [|n2 [|n3 sh]]]]; cbn [length] in *; try lia; try (apply U; [lia|exact E]).
      + inversion F as [|? ? F0 F']; subst. inversion F' as [|? ? F1 _]; subst. now apply w2labels_ok.
      + inversion F as [|? ? F0 F']; subst. inversion F' as [|? ? F1 F'']; subst. inversion F'' as [|? ? F2 _]; subst. now apply w3labels_ok.
    - destruct C as [[C _]|C]; [|auto]. exfalso. destruct C as [C|C]; rewrite C in B; discriminate.
  Qed.

  Lemma small_alloc h (l : list T) : small h -> 2 * length l <= W -> small (h ++ [Some l]).
  Proof.
    intros SM L b m E. destruct (Nat.lt_ge_cases b (length h)) as [LT|GE].
    - rewrite nth_error_app1 in E by exact LT. eauto.
    - rewrite nth_error_app2 in E by exact GE. destruct (b - length h) as [|k]; cbn [nth_error] in E; [injection E as <-; exact L|]. now destruct k.
  Qed.

  Lemma weinsum_ok h ops subs out h' r : Forall (snug W) ops -> small h ->
    (forall strides ish osh, prepare_einsum ops subs out = Ok (strides, ish, osh) -> 0 < prod ish < W) ->
    nd_einsum zero one add mul fma h ops subs out = Ok (h', r) -> 0 < prod (a_shape r) -> 2 * prod (a_shape r) <= W ->
    weinsum W bld zero one add mul fma h ops subs out = Ok (h', r).
  Proof.
    intros F SM B E P H. unfold weinsum, nd_einsum in *. apply bind_Ok_inv in E as (((strides & ish) & osh) & PE & E). cbn [alloc] in *. unfold alloc in *. apply bind_Ok_inv in E as (h2 & R & E).
    injection E as <- <-. cbn [fresh_arr a_shape] in *. assert (P' : 0 < prod osh < W) by lia.
    rewrite (wprepare_ok W bld _ _ _ _ _ _ F PE P'). cbn [bind]. rewrite wprod_ok by exact P'. cbn [bind]. destruct (prepare_rows _ _ _ _ _ _ PE) as [RW L]. rewrite <- (map_length a_ptr ops) in RW.
    destruct (wrun_ok _ _ _ _ _ _ RW L (small_alloc h (repeat zero (prod osh)) SM ltac:(rewrite repeat_length; exact H)) (or_intror (B _ _ _ PE)) R) as [-> _]. cbn [bind].
    rewrite wfresh_ok by exact P'. reflexivity.
  Qed.

  Lemma fill_uniform_small v n s : forall h p h', small h -> fill_uniform h p n s v = Ok h' -> small h'.
  Proof.
    induction n as [|n IH]; intros h p h' SM E; cbn [fill_uniform] in E; [injection E as <-; exact SM|]. apply bind_Ok_inv in E as (h1 & X & E). eapply IH; [|exact E]. eapply st_small; eauto.
  Qed.
  Lemma loop_ptr_small (body : heap T -> ptr -> res (heap T)) s n : (forall h p h', small h -> body h p = Ok h' -> small h') -> forall h p h', small h -> loop_ptr body h p n s = Ok h' -> small h'.
  Proof.
    intros B. induction n as [|n IH]; intros h p h' SM E; cbn [loop_ptr] in E; [injection E as <-; exact SM|]. apply bind_Ok_inv in E as (h1 & X & E). eapply IH; [|exact E]. eapply B; eauto.
  Qed.
  Lemma k_fill_small v sh : forall h p st len h', small h -> k_fill h p sh st len v = Ok h' -> small h'.
  Proof.
    induction sh as [|n sh IH]; intros h p st len h' SM E; cbn [k_fill] in E; destruct (has_uniform_stride _ _) as [s|]; try discriminate;
      try (destruct (s =? 1); eapply fill_uniform_small; eauto).
    destruct st as [|s st]; [discriminate|]. eapply loop_ptr_small; [|exact SM|exact E]. intros h0 p0 h1 SM0 X. cbn beta in X. apply bind_Ok_inv in X as (n1 & _ & X). apply bind_Ok_inv in X as (s1 & _ & X).
    eapply IH; eauto.
  Qed.

  Lemma weinsum_into_ok h ops subs out rst dst h' m : Forall (snug W) ops -> small h ->
    (forall strides ish osh, prepare_einsum ops subs out = Ok (strides, ish, osh) -> PropsWordViews.fits W m osh rst /\ ((length ops = 1 \/ length ops = 2) /\ (length ish = 2 \/ length ish = 3))) ->
    einsum_into_ptr zero one add mul fma h ops subs out rst dst = Ok h' ->
    weinsum_into W bld zero one add mul fma h ops subs out rst dst = Ok h' /\ small h'.
  Proof.
    intros F SM B E. unfold weinsum_into, einsum_into_ptr in *. apply bind_Ok_inv in E as (((strides & ish) & osh) & PE & E). destruct (B _ _ _ PE) as (FI & LN).
    assert (P' : 0 < prod osh < W) by (split; [apply pos_prod; apply FI|apply FI]).
    rewrite (wprepare_ok W bld _ _ _ _ _ _ F PE P'). cbn [bind]. rewrite (wuniform_ok W bld m) by exact FI. cbn [bind]. apply bind_Ok_inv in E as (u & U & E). rewrite U. cbn [bind].
    rewrite wprod_ok by exact P'. cbn [bind]. rewrite (wk_fill_ok W bld m) by exact FI. apply bind_Ok_inv in E as (h1 & KF & E). rewrite KF. cbn [bind].
    destruct (prepare_rows _ _ _ _ _ _ PE) as [RW L]. rewrite <- (map_length a_ptr ops) in RW, LN. apply wrun_ok; auto. eapply k_fill_small; eauto.
  Qed.

  Lemma fresh_fits b n sh : prod sh = n -> 0 < n -> 2 * n <= W -> PropsWordViews.fits W n sh (a_stride (fresh_arr b n sh)).
  Proof.
    intros P N H. apply (chain_fits W b n false (fresh_arr b n sh)); [now apply Ch_new|exact H| |cbn [fresh_arr a_shape]; lia].
    cbn [fresh_arr a_stride]. rewrite stride_from_shape_rm. apply Forall_forall. intros s I. enough (s <= n) by lia. rewrite <- P. rewrite <- P in N. clear - I N.
    induction sh as [|d sh IH]; cbn [rm_stride] in I; [destruct I|]. rewrite prod_cons in *. assert (0 < d) by nia. assert (0 < prod sh) by nia. destruct I as [<-|I]; [nia|]. specialize (IH ltac:(assumption) I). nia.
  Qed.

  Lemma wmatrix_matrix_ok n k m p h a b rst dst h' : snug W a -> snug W b -> small h -> a_shape a = [n; k] -> a_shape b = [k; m] -> PropsWordViews.fits W p [n; m] rst ->
    matrix_matrix zero one add mul fma h a b rst dst = Ok h' -> wmatrix_matrix W bld zero one add mul fma h a b rst dst = Ok h' /\ small h'.
  Proof.
    intros SA SB SM Ea Eb FI E. unfold wmatrix_matrix, matrix_matrix in *. eapply weinsum_into_ok; eauto.
    intros strides ish osh PE. destruct SA as (na & FA & _), SB as (nb & FB & _).
    assert (FF : Forall2 (EinsumFacts5.fits (mdim n k m)) matmul_subs [a; b]).
    { constructor; [|constructor; [|constructor]].
      - split; [apply letters_dec; reflexivity|]. split; [rewrite Ea; reflexivity|]. split; [rewrite (fit_len _ _ _ _ FA), Ea; reflexivity|cbn; unfold MAX_DIMS; lia].
      - split; [apply letters_dec; reflexivity|]. split; [rewrite Eb; reflexivity|]. split; [rewrite (fit_len _ _ _ _ FB), Eb; reflexivity|cbn; unfold MAX_DIMS; lia]. }
    destruct (prepare_ok (mdim n k m) matmul_subs [a; b] matmul_out FF) as (L & PL & Q).
    - apply letters_dec. reflexivity.
    - repeat constructor; cbn; intuition congruence.
    - intros l [<-|[<-|[]]]; [exists [105; 106]%Z|exists [106; 107]%Z]; cbn; auto.
    - cbn. unfold MAX_ARGS. lia.
    - replace (length matmul_out + length (summed matmul_subs matmul_out)) with 3 by (vm_compute; reflexivity). unfold MAX_DIMS. lia.
    - rewrite Q in PE. injection PE as <- <- <-. apply Permutation_length in PL. split; [exact FI|]. split; [now right|]. right. rewrite map_length, <- PL. vm_compute. reflexivity.
  Qed.

  Lemma wdot_ok h a b : 1 < W -> wdot W bld zero add mul h a b = nd_dot zero add mul h a b.
  Proof.
    intros H. unfold wdot, nd_dot. destruct (a_shape a) as [|n [|]], (a_shape b) as [|m [|]], (a_stride a) as [|s [|]], (a_stride b) as [|t [|]]; try reflexivity.
  Qed.

  Lemma wmatmul_ok h a b h' r : snug W a -> snug W b -> small h -> nd_matmul zero one add mul fma h a b = Ok (h', r) -> 0 < prod (a_shape r) -> 2 * prod (a_shape r) <= W ->
    wmatmul W bld zero one add mul fma h a b = Ok (h', r).
  Proof.
    intros SA SB SM E P H. unfold wmatmul, nd_matmul in *. destruct (a_shape a) as [|n [|k [|]]] eqn:Ea; try discriminate E.
    - destruct (a_shape b) as [|m [|]]; try discriminate E. rewrite wdot_ok by lia. exact E.
    - destruct (a_shape b) as [|k' [|m [|]]] eqn:Eb; try discriminate E.
      + apply bind_Ok_inv in E as (u & G & E). rewrite G. cbn [bind]. destruct (a_stride a) as [|rs [|s [|]]], (a_stride b) as [|t [|]]; try discriminate E. cbn [alloc] in *. unfold alloc in *.
        apply bind_Ok_inv in E as (h2 & M & E). rewrite M. cbn [bind]. injection E as <- <-. cbn [fresh_arr a_shape] in *. rewrite wfresh_ok by lia. reflexivity.
      + apply bind_Ok_inv in E as (u & G & E). rewrite G. cbn [bind]. apply guard_true in G. apply Nat.eqb_eq in G. subst k'. apply bind_Ok_inv in E as ((h1 & r1) & N & E).
        apply bind_Ok_inv in E as (h2 & M & E). injection E as <- <-. assert (N' := N). unfold nd_full in N'. apply bind_Ok_inv in N' as (u' & _ & N'). unfold from_buffer, alloc in N'. rewrite repeat_length in N'. injection N' as <- <-. cbn [fresh_arr a_shape] in P, H.
        rewrite wfull_room by lia. rewrite N. cbn [bind].
        edestruct (wmatrix_matrix_ok n k m (prod [n; m])) as [W1 _]; [exact SA|exact SB| |exact Ea|exact Eb| |exact M|rewrite W1; reflexivity].
        * apply small_alloc; [exact SM|]. now rewrite repeat_length.
        * apply fresh_fits; [reflexivity|exact P|exact H].
  Qed.

  Lemma snug_shift a k : snug W a -> snug W (shift_arr a k).
  Proof. intros S. exact S. Qed.
  Lemma wbmm_go_ok n k m p sa sb rst rs q : PropsWordViews.fits W p [n; m] rst -> forall h a b dst h', snug W a -> snug W b -> small h -> a_shape a = [n; k] -> a_shape b = [k; m] ->
    bmm_go zero one add mul fma h a b sa sb rst rs dst q = Ok h' -> wbmm_go W bld zero one add mul fma h a b sa sb rst rs dst q = Ok h'.
  Proof.
    intros FI. induction q as [|q IH]; intros h a b dst h' SA SB SM Ea Eb E; cbn [bmm_go wbmm_go] in *; [exact E|]. apply bind_Ok_inv in E as (h1 & M & E).
    destruct (wmatrix_matrix_ok n k m p h a b rst dst h1) as [-> SM1]; auto. cbn [bind]. apply IH; auto.
  Qed.
End Run.

(** ** Diagonals *)
Lemma drop_sum_0 x y l : forall p, list_sum (drop_two p x y l) <= list_sum l.
Proof. induction l as [|v l IH]; intros p; cbn [drop_two]; [lia|]. specialize (IH (S p)). change (list_sum (v :: l)) with (v + list_sum l). destruct (_ || _); [lia|]. change (list_sum (v :: drop_two (S p) x y l)) with (v + list_sum (drop_two (S p) x y l)). lia. Qed.
Lemma nth_down z p (l : list nat) v : p < z -> nth (z - p) (v :: l) 0 = nth (z - S p) l 0.
Proof. intros H. replace (z - p) with (S (z - S p)) by lia. reflexivity. Qed.
Lemma drop_sum_1 x y z l : z = x \/ z = y -> forall p, p <= z < p + length l -> list_sum (drop_two p x y l) + nth (z - p) l 0 <= list_sum l.
Proof.
  intros Z. induction l as [|v l IH]; intros p H; cbn [length drop_two] in *; [lia|]. change (list_sum (v :: l)) with (v + list_sum l).
  destruct (Nat.eq_dec z p) as [->|N].
  - replace ((p =? x) || (p =? y)) with true by (destruct Z as [<-|<-]; rewrite Nat.eqb_refl; [reflexivity|now rewrite orb_true_r]). rewrite Nat.sub_diag. change (nth 0 (v :: l) 0) with v. pose proof (drop_sum_0 x y l (S p)). lia.
  - specialize (IH (S p) ltac:(lia)). rewrite nth_down by lia. destruct (_ || _); [lia|]. change (list_sum (v :: drop_two (S p) x y l)) with (v + list_sum (drop_two (S p) x y l)). lia.
Qed.
Lemma drop_sum_2 x y l : x <> y -> forall p, p <= x < p + length l -> p <= y < p + length l -> list_sum (drop_two p x y l) + (nth (x - p) l 0 + nth (y - p) l 0) <= list_sum l.
Proof.
  intros N. induction l as [|v l IH]; intros p X Y; cbn [length drop_two] in *; [lia|]. change (list_sum (v :: l)) with (v + list_sum l).
  destruct (Nat.eqb_spec p x) as [E|Nx]; [|destruct (Nat.eqb_spec p y) as [E|Ny]]; cbn [orb].
  - subst x. rewrite Nat.sub_diag. change (nth 0 (v :: l) 0) with v. rewrite (nth_down y) by lia. pose proof (drop_sum_1 p y y l (or_intror eq_refl) (S p) ltac:(lia)). lia.
  - subst y. rewrite Nat.sub_diag. change (nth 0 (v :: l) 0) with v. rewrite (nth_down x) by lia. pose proof (drop_sum_1 x p x l (or_introl eq_refl) (S p) ltac:(lia)). lia.
  - rewrite !nth_down by lia. specialize (IH (S p) ltac:(lia) ltac:(lia)). change (list_sum (v :: drop_two (S p) x y l)) with (v + list_sum (drop_two (S p) x y l)). lia.
Qed.
Lemma drop_prod_0 x y l : forall p, pos l -> prod (drop_two p x y l) <= prod l.
Proof. induction l as [|v l IH]; intros p P; cbn [drop_two]; [lia|]. inversion P; subst. specialize (IH (S p) H2). rewrite prod_cons. destruct (_ || _); [nia|]. rewrite prod_cons. nia. Qed.
Lemma drop_prod_1 x y l : forall p, pos l -> p <= x < p + length l -> prod (drop_two p x y l) * nth (x - p) l 0 <= prod l.
Proof.
  induction l as [|v l IH]; intros p P H; cbn [length drop_two] in *; [lia|]. inversion P; subst. rewrite prod_cons. destruct (Nat.eqb_spec p x) as [E|N]; cbn [orb].
  - subst x. rewrite Nat.sub_diag. change (nth 0 (v :: l) 0) with v. pose proof (drop_prod_0 p y l (S p) H3). nia.
  - rewrite nth_down by lia. specialize (IH (S p) H3 ltac:(lia)). destruct (p =? y); [nia|]. rewrite prod_cons. nia.
Qed.
Lemma sum_in_le (l : list nat) x : In x l -> x <= list_sum l.
Proof. induction l as [|y l IH]; [intros []|]. change (list_sum (y :: l)) with (y + list_sum l). intros [->|I]; [lia|]. specialize (IH I). lia. Qed.

(** an array with room in its words: fewer axes than words, its elements can be counted, and so can its strides, added up *)
Definition room (W : nat) (a : arr) : Prop := length (a_shape a) < W /\ 0 < prod (a_shape a) < W /\ list_sum (a_stride a) < W.

Lemma room_wordy W a : room W a -> wordy W a.
Proof. intros (L & P & S). split; [exact L|]. split; [now apply dims_lt|]. apply Forall_forall. intros s I. apply sum_in_le in I. lia. Qed.
Lemma room_fits W b n bc a : chain b n bc a -> 2 * n <= W -> room W a -> PropsWordViews.fits W n (a_shape a) (a_stride a).
Proof. intros C H R. pose proof (room_wordy W a R) as (_ & _ & F). eapply chain_fits; eauto. apply R. Qed.
Lemma room_snug W b n bc a : chain b n bc a -> 2 * n <= W -> room W a -> snug W a.
Proof. intros C H R. exists n. split; [eapply room_fits; eauto|apply R]. Qed.

Section Views.
  Variable W : nat.
  Variable bld : build.

  Lemma wview_room b n bc a o r : chain b n bc a -> view_allowed o a bc -> view_by o a = Ok (Some r) -> 2 * n <= W -> room W a -> room W r -> wview_by W bld o a = Ok (Some r).
  Proof. intros C A E H RA RR. eapply C70_agree; eauto using room_wordy. apply RR. Qed.
  Lemma wview_none o a : view_by o a = Ok None -> list_sum (a_stride a) < W -> wview_by W bld o a = Ok None.
  Proof.
    intros E S. destruct o; cbn [view_by wview_by] in *; try discriminate E; try (apply bind_Ok_inv in E as (r & _ & E); discriminate E).
    unfold einsum_view in E. unfold wv_einsum. apply bind_Ok_inv in E as ((((labels & counts) & dims) & bd) & -> & E). cbn [bind]. apply bind_Ok_inv in E as (outl & -> & E). cbn [bind].
    apply bind_Ok_inv in E as (q & R & E). destruct q as [[nsh nst]|]; [discriminate|]. unfold reshape_for_einsum in R. rewrite (wrse_room W bld _ _ _ _ _ _ _ _ _ R); [reflexivity|].
    cbn [skipn]. replace (list_sum (repeat 0 (length outl))) with 0; [exact S|]. clear. induction (length outl); [reflexivity|exact IHn].
  Qed.

  Lemma diagonal_room b n bc a o i j r : chain b n bc a -> nd_offset_diagonal_along a o i j = Ok r -> room W a -> room W r.
  Proof.
    intros C E (L & P & S). pose proof (i_wf _ _ _ _ (chain_inv _ _ _ _ C)) as WF. destruct (diagonal_inv_args _ _ _ _ _ WF E) as (x & y & Ex & Ey & N & O1 & O2 & _ & ST & _ & SH).
    apply as_absolute_inv in Ex as [Hx _], Ey as [Hy _]. pose proof (proj2 (pos_prod _) (proj1 P)) as PS. pose proof (proj1 (pos_nz _) PS) as NZ. unfold wf in WF.
    pose proof (nz_nth _ _ NZ Hx) as Nx. pose proof (nz_nth _ _ NZ Hy) as Ny.
    assert (LD : length (drop_two 0 x y (a_shape a)) + 1 <= length (a_shape a)).
    { assert (LE : forall l s, length (drop_two s x y l) <= length l).
      { induction l as [|v l IH]; intros s; cbn [drop_two length]; [lia|]. specialize (IH (Datatypes.S s)). destruct (_ || _); cbn [length]; lia. }
      assert (G : forall l s, s <= x < s + length l -> length (drop_two s x y l) + 1 <= length l); [|apply G; lia].
      induction l as [|v l IH]; intros s B; cbn [drop_two length] in *; [lia|]. destruct (Nat.eqb_spec s x) as [->|Q].
      - cbn [orb]. specialize (LE l (Datatypes.S x)). lia.
      - cbn [orb]. specialize (IH (Datatypes.S s) ltac:(lia)). destruct (s =? y); cbn [length]; lia. }
    split; [|split].
    - rewrite SH, app_length. cbn [length]. lia.
    - rewrite SH. split.
      + apply pos_prod. apply Forall_app. split; [apply pos_nz, nz_drop, NZ|]. constructor; [|constructor]. destruct (Z_le_dec 0 o) as [Q|Q]; [specialize (O1 Q)|specialize (O2 ltac:(lia))]; lia.
      + rewrite prod_app, prod_cons. change (prod []) with 1. pose proof (drop_prod_1 x y (a_shape a) 0 PS ltac:(lia)) as D. rewrite Nat.sub_0_r in D.
        set (m := Nat.min _ _). assert (m <= nth x (a_shape a) 0) by (unfold m; lia). nia.
    - rewrite ST. rewrite list_sum_app. pose proof (drop_sum_2 x y (a_stride a) N 0 ltac:(lia) ltac:(lia)) as D. rewrite !Nat.sub_0_r in D. cbn [list_sum fold_right]. lia.
  Qed.

  Lemma wtrace_room {T} (zero : T) g (h : heap T) b n bc a o i j h' r : chain b n bc a -> 2 * n <= W -> room W a -> nd_trace zero g h a o i j = Ok (h', r) -> 2 * prod (a_shape r) <= W ->
    wtrace W bld zero g h a o i j = Ok (h', r).
  Proof.
    intros C H R E P. unfold wtrace, nd_trace in *. apply bind_Ok_inv in E as (d & D & E). pose proof (diagonal_room _ _ _ _ _ _ _ _ C D R) as RD. pose proof (Ch_diagonal _ _ _ _ _ _ _ _ C D) as CD.
    assert (wv_diagonal W bld a o i j = Ok d) as ->.
    { assert (V : wview_by W bld (VDiagonal o i j) a = Ok (Some d)) by (eapply wview_room; eauto; [exact I|cbn [view_by]; now rewrite D]). cbn [wview_by] in V. now apply some_inv in V. }
    cbn [bind]. eapply wreduce_along_ok; eauto. eapply room_fits; eauto.
  Qed.

  Lemma slice0_room b n bc a q x y la : chain b n bc a -> 2 * n <= W -> room W a -> a_shape a = [q; x; y] -> nd_slice_along a 0 (IUsize 0) = Ok la ->
    wv_slice_along W bld a 0 (IUsize 0) = Ok la /\ snug W la /\ a_shape la = [x; y].
  Proof.
    intros C H R SH E. pose proof R as (L & P & S). pose proof (i_wf _ _ _ _ (chain_inv _ _ _ _ C)) as WF. unfold wf in WF.
    assert (A : view_allowed (VSliceAlong 0 (IUsize 0)) a bc).
    { cbn [view_allowed]. intros k K. rewrite SH in *. change (as_absolute 0 (length [q; x; y])) with (Ok 0) in K. injection K as <-. cbn [region pick_ok nth]. rewrite !prod_cons in P. nia. }
    assert (V : view_by (VSliceAlong 0 (IUsize 0)) a = Ok (Some la)) by (cbn [view_by]; now rewrite E).
    assert (G : a_shape la = [x; y] /\ exists s0, a_stride a = s0 :: a_stride la).
    { unfold nd_slice_along in E. rewrite SH in E, WF. change (as_absolute 0 (length [q; x; y])) with (Ok 0) in E. destruct (a_stride a) as [|s0 [|s1 [|s2 [|]]]]; try discriminate WF.
      cbn [bind vget nth_error index_collapses vremove index_first] in E. apply bind_Ok_inv in E as (len & _ & E). injection E as <-. cbn [a_shape a_stride]. split; [reflexivity|eauto]. }
    destruct G as (SL & s0 & TL). assert (RL : room W la).
    { split; [rewrite SL; rewrite SH in L; cbn [length] in *; lia|]. split.
      - rewrite SL. rewrite SH in P. rewrite prod_cons in P. clear - P. assert (1 <= q) by nia. assert (1 <= prod [x; y]) by nia. nia.
      - rewrite TL in S. change (list_sum (s0 :: a_stride la)) with (s0 + list_sum (a_stride la)) in S. lia. }
    pose proof (wview_room _ _ _ _ _ _ C A V H R RL) as WV. cbn [wview_by] in WV. apply some_inv in WV. split; [exact WV|]. split; [|exact SL].
    pose proof (view_by_chain _ _ _ _ _ _ C A V) as CL. eapply room_snug; eauto.
  Qed.
End Views.

Section Bmm.
  Variable W : nat.
  Variable bld : build.
  Context {T : Type}.
  Variable zero one : T.
  Variable add mul : T -> T -> res T.
  Variable fma : T -> T -> T -> res T.

  Lemma wbmm_room (h : heap T) b1 n1 bc1 a b2 n2 bc2 b h' r : chain b1 n1 bc1 a -> chain b2 n2 bc2 b -> 2 * n1 <= W -> 2 * n2 <= W -> room W a -> room W b -> small W h ->
    nd_bmm zero one add mul fma h a b = Ok (h', r) -> 0 < prod (a_shape r) -> 2 * prod (a_shape r) <= W -> wbmm W bld zero one add mul fma h a b = Ok (h', r).
  Proof.
    intros C1 C2 H1 H2 R1 R2 SM E P H.
    destruct (a_shape a) as [|q [|x [|y [|]]]] eqn:Ea; try (unfold nd_bmm in E; rewrite Ea in E; discriminate E).
    destruct (a_shape b) as [|q' [|y' [|z [|]]]] eqn:Eb; try (unfold nd_bmm in E; rewrite Ea, Eb in E; discriminate E).
    assert (y' = y) as ->.
    { destruct (Nat.eq_dec y y') as [E'|N]; [auto|]. exfalso. destruct R1 as (_ & P1 & _), R2 as (_ & P2 & _). rewrite Ea in P1. rewrite Eb in P2. apply proj1, pos_prod in P1. apply proj1, pos_prod in P2.
      inversion P1 as [|? ? Q1 P1']; subst. inversion P1' as [|? ? Q2 P1'']; subst. inversion P1'' as [|? ? Q3 _]; subst. inversion P2 as [|? ? Q4 P2']; subst. inversion P2' as [|? ? Q5 P2'']; subst. inversion P2'' as [|? ? Q6 _]; subst.
      assert (q' = q) as ->. { unfold nd_bmm in E. rewrite Ea, Eb in E. apply bind_Ok_inv in E as (u & G & _). apply guard_true in G. now apply Nat.eqb_eq in G. }
      pose proof (i_wf _ _ _ _ (chain_inv _ _ _ _ C1)) as W1. pose proof (i_wf _ _ _ _ (chain_inv _ _ _ _ C2)) as W2. unfold wf in W1, W2. rewrite Ea in W1. rewrite Eb in W2.
      rewrite (C26_bmm_inner_mismatch_panics T zero one add mul fma h a b q x y y' z Ea Eb N Q1 Q2 Q3 Q5 Q6 W1 W2) in E. discriminate. }
    unfold wbmm, nd_bmm in *. rewrite Ea, Eb in *. apply bind_Ok_inv in E as (u & G & E). rewrite G. cbn [bind]. apply bind_Ok_inv in E as ((h1 & r1) & N & E).
    apply bind_Ok_inv in E as (la & La & E). apply bind_Ok_inv in E as (lb & Lb & E). apply bind_Ok_inv in E as (sa & Sa & E). apply bind_Ok_inv in E as (sb & Sb & E). apply bind_Ok_inv in E as (rs & Rs & E).
    apply bind_Ok_inv in E as (h2 & B & E). injection E as <- <-.
    assert (N' := N). unfold nd_full in N'. apply bind_Ok_inv in N' as (u' & _ & N'). unfold from_buffer, alloc in N'. rewrite repeat_length in N'. injection N' as <- <-. cbn [fresh_arr a_shape] in P, H.
    rewrite wfull_room by lia. rewrite N. cbn [bind]. destruct (slice0_room W bld _ _ _ _ _ _ _ _ C1 H1 R1 Ea La) as (-> & SA & SLA). destruct (slice0_room W bld _ _ _ _ _ _ _ _ C2 H2 R2 Eb Lb) as (-> & SB & SLB).
    cbn [bind]. rewrite Sa. cbn [bind]. rewrite Sb. cbn [bind]. rewrite Rs. cbn [bind]. rewrite prod_cons in P, H.
    assert (1 <= q) by (clear - P; nia). assert (1 <= prod [x; z]) by (clear - P; nia).
    rewrite (wbmm_go_ok W bld zero one add mul fma x y z (prod [x; z]) sa sb _ rs q) with (h' := h2); [reflexivity| |exact SA|exact SB| |exact SLA|exact SLB|exact B].
    - cbn [fresh_arr a_stride]. rewrite stride_from_shape_rm. cbn [rm_stride tl]. pose proof (fresh_fits W 0 (prod [x; z]) [x; z] eq_refl ltac:(lia) ltac:(nia)) as F. cbn [fresh_arr a_stride] in F. rewrite stride_from_shape_rm in F. exact F.
    - apply small_alloc; [exact SM|]. rewrite repeat_length. exact H.
  Qed.
End Bmm.

(** ** Programs *)
Section RoomProg.
  Variable W : nat.
  Context {T : Type}.
  Variable zero one : T.
  Variable add mul : T -> T -> T.
  Variable eqb : T -> T -> bool.
  Local Notation exec := (exec zero one add mul eqb).
  Local Notation exec_all := (exec_all zero one add mul eqb).

  (** no allocation has more elements than half the words, and every array has room *)
  Definition roomy (s : @state T) : Prop := small W (s_heap s) /\ Forall (fun p => room W (fst p)) (s_env s).
  (** the index combinations of an einsum, under any choice of its labels, can be counted *)
  Definition loops (c : @cmd T) (s : @state T) : Prop :=
    match c with
    | CEinsum ks subs out => forall dm ls, Forall2 (fun sub k => on s k (fun a _ => a_shape a = map dm sub)) subs ks ->
        NoDup ls -> (forall l, In l ls -> exists sub, In sub subs /\ In l sub) -> prod (map dm ls) < W
    | _ => True
    end.
  Fixpoint all_roomy (cs : list (@cmd T)) (s : @state T) : Prop :=
    roomy s /\ match cs with [] => True | c :: cs' => loops c s /\ forall s', exec c s = Ok s' -> all_roomy cs' s' end.

  Variable bld : build.
  Local Notation wexec := (wexec W bld zero one add mul eqb).

  Lemma got s k (p : arr * bool) : nth_arr s k = Ok p -> sound s -> roomy s ->
    nth_error (s_env s) k = Some p /\ room W (fst p) /\ snug W (fst p) /\ exists n, chain (a_blk (fst p)) n (snd p) (fst p) /\ 2 * n <= W /\ PropsWordViews.fits W n (a_shape (fst p)) (a_stride (fst p)).
  Proof.
    intros E S [SM RM]. unfold nth_arr in E. destruct (nth_error (s_env s) k) as [q|] eqn:N; [|discriminate]. injection E as ->. split; [reflexivity|].
    apply nth_error_In in N. pose proof (proj1 (Forall_forall _ _) RM _ N) as R. cbn beta in R. split; [exact R|]. destruct (proj1 (Forall_forall _ _) S _ N) as (n & (l & L & LN) & C).
    pose proof (SM _ _ L). rewrite LN in H. split; [eapply room_snug; eauto|]. exists n. split; [exact C|]. split; [exact H|]. eapply room_fits; eauto.
  Qed.

  (** the result of an operation that allocates *)
  Lemma made_got s x s' : made s x = Ok s' -> sound s' -> roomy s' ->
    exists h r, x = Ok (h, r) /\ 0 < prod (a_shape r) /\ 2 * prod (a_shape r) <= W.
  Proof.
    intros E S [SM RM]. unfold made in E. destruct x as [[h r]| |]; cbn [bind fst snd] in E; try discriminate. injection E as <-. exists h, r. split; [reflexivity|].
    apply Forall_app in S as [_ S]. apply Forall_inv in S. cbn [fst snd s_heap] in S. destruct S as (n & (l & L & LN) & C). pose proof (SM _ _ L). pose proof (chain_size _ _ _ C). lia.
  Qed.

  Lemma einsum_loops s ks subs out (l : list (arr * bool)) : sound s -> roomy s -> mapM (nth_arr s) ks = Ok l -> allowed (CEinsum ks subs out) s -> loops (CEinsum ks subs out) s ->
    Forall (snug W) (map fst l) /\ forall strides ish osh, prepare_einsum (map fst l) subs out = Ok (strides, ish, osh) -> 0 < prod ish < W.
  Proof.
    intros S R M (U & L15 & LS & LO & sm & dm & ND & LET & NE & L32 & F) LP.
    assert (NT : Forall2 (fun k p => nth_arr s k = Ok p) ks l).
    { clear -M. revert l M. induction ks as [|k ks IH]; intros l M; cbn [mapM] in M; [injection M as <-; constructor|].
      apply bind_Ok_inv in M as (p & E & M). apply bind_Ok_inv in M as (l' & E' & [= <-]). constructor; [exact E|now apply IH]. }
    split. { clear - NT S R. induction NT as [|k p ks l E NT IH]; cbn [map]; constructor; [|exact IH]. now apply (got s k p E S R). }
    intros strides ish osh PE.
    assert (FF : Forall2 (EinsumFacts5.fits dm) subs (map fst l)).
    { clear - F NT S R LS U. revert l NT. induction F as [|sub k subs ks H F IH]; intros l NT; inversion NT as [|? p ? l' E NT']; subst; cbn [map]; constructor.
      - destruct (got s k p E S R) as (N & _ & _ & n & C & _). destruct p as [a bc]. cbn [fst snd] in *. pose proof (H a bc N) as SH. split; [|split; [exact SH|]].
        + apply Forall_inv in LS. revert LS. apply Forall_impl. intros c. apply letter_alpha.
        + pose proof (i_wf _ _ _ _ (chain_inv _ _ _ _ C)) as WF. unfold wf in WF. rewrite SH, map_length in WF. split; [exact WF|]. pose proof (U k (or_introl eq_refl) a bc N) as [D _]. now rewrite SH, map_length in D.
      - apply IH; auto; [intros k' I; apply U; now right|now apply Forall_inv_tail in LS]. }
    assert (AS : Forall letters subs). { clear - LS. induction LS as [|x l H LS IH]; constructor; auto. revert H. apply Forall_impl. intros c. apply letter_alpha. }
    assert (NDO : NoDup out). { clear - ND. induction out as [|x out IH]; [constructor|]. cbn [app] in ND. inversion ND; subst. constructor; [|now apply IH]. intros I. apply H1. apply in_or_app. now left. }
    assert (EQ : forall x, In x (out ++ summed subs out) <-> In x (out ++ sm)).
    { intros x. rewrite LET. rewrite in_app_iff, summed_spec by exact AS. split; [intros [I|[I _]]; [apply LET, in_or_app; now left|exact I]|].
      intros I. destruct (in_dec Z.eq_dec x out) as [J|J]; [now left|right; auto]. }
    assert (NDS : NoDup (out ++ summed subs out)).
    { assert (G : forall (a b : list Z), NoDup a -> NoDup b -> (forall x, In x b -> ~ In x a) -> NoDup (a ++ b)).
      { clear. induction a as [|x a IH]; intros b NA NB D; [exact NB|]. inversion NA; subst. cbn [app]. constructor; [|apply IH; auto; intros y I J; apply (D y I); now right].
        intros I. apply in_app_or in I as [I|I]; [contradiction|]. apply (D x I). now left. }
      apply G; [exact NDO|apply NoDup_summed|]. intros x I. now apply summed_spec in I as [_ I]. }
    assert (LEN : length (out ++ summed subs out) = length (out ++ sm)).
    { apply Nat.le_antisymm; apply NoDup_incl_length; auto; intros x I; now apply EQ. }
    destruct (prepare_ok dm subs (map fst l) out FF) as (L & PL & Q).
    - revert LO. apply Forall_impl. intros c. apply letter_alpha.
    - exact NDO.
    - intros x I. apply LET. apply in_or_app. now left.
    - rewrite map_length. apply Forall2_length in NT. unfold MAX_ARGS. lia.
    - rewrite <- app_length, LEN. unfold MAX_DIMS. lia.
    - rewrite Q in PE. injection PE as _ <- _.
      assert (IL : forall x, In x L -> exists sub, In sub subs /\ In x sub).
      { intros x I. apply LET, EQ. eapply Permutation_in; [apply Permutation_sym; exact PL|exact I]. }
      split.
      + apply pos_prod. apply Forall_map, Forall_forall. intros x I. apply IL in I as (sub & I1 & I2).
        assert (PS : exists p, In p l /\ a_shape (fst p) = map dm sub).
        { clear - FF I1. revert l FF. induction subs as [|s0 subs IH]; intros l FF; [easy|]. destruct l as [|p l]; cbn [map] in FF; inversion FF as [|? ? ? ? (_ & H & _) FF']; subst.
          destruct I1 as [->|I1]; [exists p; split; [now left|exact H]|]. destruct (IH I1 l FF') as (q & ? & ?). exists q. split; [now right|auto]. }
        destruct PS as (p & P1 & P2). assert (R1 : room W (fst p)).
        { destruct R as [_ R]. clear - NT R P1. induction NT as [|k q ks l E NT IH]; [easy|]. destruct P1 as [->|P1]; [|now apply IH]. unfold nth_arr in E. destruct (nth_error (s_env s) k) eqn:N; [|discriminate]. injection E as ->.
          apply nth_error_In in N. exact (proj1 (Forall_forall _ _) R _ N). }
        destruct R1 as (_ & [P _] & _). apply pos_prod in P. rewrite P2 in P. apply (proj1 (Forall_forall _ _) P). now apply in_map.
      + apply LP; [exact F| |exact IL]. eapply Permutation_NoDup; eauto.
  Qed.

  Lemma wexec_room c s s' : ring_ok zero one add mul c -> sound s -> allowed c s -> roomy s -> loops c s -> exec c s = Ok s' -> roomy s' -> wexec c s = Ok s'.
  Proof.
    intros RG S A R LP E R'. assert (S' : sound s') by (eapply (exec_good zero one add mul eqb); eauto).
    destruct c; cbn [Prog.exec WordOps.wexec] in *;
      repeat match goal with H : bind (nth_arr s ?k) _ = Ok _ |- _ => let p := fresh "p" in let G := fresh "G" in apply bind_Ok_inv in H as (p & G & H); rewrite G; cbn [bind];
        let N := fresh "N" in let RM := fresh "RM" in let SN := fresh "SN" in let n := fresh "n" in let C := fresh "C" in let HW := fresh "HW" in let F := fresh "F" in
        destruct (got _ _ _ G S R) as (N & RM & SN & n & C & HW & F) end;
      try match goal with H : made _ _ = Ok _ |- _ => let Q := fresh "Q" in destruct (made_got _ _ _ H S' R') as (h & r & Q & P0 & P2); rewrite Q in H end.
    - assert (WN : wnew W bld (s_heap s) ks d = Ok (h, r)); [|now rewrite WN].
      unfold nd_new in Q. unfold wnew. apply bind_Ok_inv in Q as (ok & -> & Q). cbn [bind]. apply bind_Ok_inv in Q as (u & -> & Q). cbn [bind]. apply bind_Ok_inv in Q as (sh & -> & Q). cbn [bind].
      apply bind_Ok_inv in Q as (data & -> & Q). cbn [bind]. apply bind_Ok_inv in Q as (u' & -> & Q). cbn [bind]. rewrite wfrom_buffer_ok; [exact Q|]. injection Q as _ <-. cbn [fresh_arr a_shape] in *. lia.
    - rewrite wfull_room; [now rewrite Q|]. unfold nd_full in Q. apply bind_Ok_inv in Q as (u & _ & Q). injection Q as _ <-. cbn [fresh_arr a_shape] in *. lia.
    - apply bind_Ok_inv in E as ([v|] & V & E).
      + assert (RV : room W v). { injection E as <-. destruct R' as [_ R']. cbn [s_env] in R'. apply Forall_app in R' as [_ R']. now apply Forall_inv in R'. }
        cbn [allowed] in A. destruct p as [a bc]. rewrite (wview_room W bld _ _ _ _ _ _ C (A _ _ N) V HW RM RV). exact E.
      + rewrite wview_none; [exact E|exact V|apply RM].
    - rewrite (wbinary_ok W bld f n n0 zero (s_heap s) _ _ h r F F0 Q) by lia. exact E.
    - rewrite (wscalar_op_ok W bld f n) by exact F. now rewrite Q.
    - rewrite (wunary_ok W bld g n) by exact F. now rewrite Q.
    - unfold stored in *. apply bind_Ok_inv in E as (h & X & E). rewrite (wassign_ok W bld f n n0 _ _ _ h F F0 X). exact E.
    - rewrite (wassign_scalar_ok W bld f n) by exact F. exact E.
    - unfold wfill. rewrite (wk_fill_ok W bld n) by exact F. exact E.
    - unfold only_read in *. apply bind_Ok_inv in E as (v & X & E). rewrite (windex_ok W bld _ _ _ v (proj1 R) X). exact E.
    - unfold stored in *. apply bind_Ok_inv in E as (h & X & E). rewrite (windex_set_ok W bld _ _ _ _ h (proj1 R) X). exact E.
    - rewrite (wvalue_ok W bld n) by exact F. exact E.
    - exact E.
    - rewrite (wflatiter_ok W bld n) by exact F. exact E.
    - rewrite (wequal_ok W bld n n0) by assumption. exact E.
    - rewrite (wclone_ok W bld n) by exact F. now rewrite Q.
    - rewrite (wflatten_ok W bld n) by exact F. now rewrite Q.
    - rewrite (wreduce_ok W bld g n) by (auto; lia). now rewrite Q.
    - rewrite (wreduce_along_ok W bld g n _ _ _ _ h r F Q P2). exact E.
    - rewrite (wtrace_room W bld zero g (s_heap s) _ _ _ _ o i j h r C HW RM Q P2). exact E.
    - rewrite wdot_ok by lia. now rewrite Q.
    - rewrite (wmatmul_ok W bld zero one _ _ _ (s_heap s) _ _ h r SN SN0 (proj1 R) Q P0 P2). exact E.
    - rewrite (wbmm_room W bld zero one _ _ _ (s_heap s) _ _ _ _ _ _ _ _ h r C C0 HW HW0 RM RM0 (proj1 R) Q P0 P2). exact E.
    - apply bind_Ok_inv in E as (l & M & E). rewrite M. cbn [bind]. destruct (made_got _ _ _ E S' R') as (h & r & Q & P0 & P2). rewrite Q in E.
      destruct (einsum_loops _ _ _ _ _ S R M A LP) as [FS B]. rewrite (weinsum_ok W bld zero one _ _ _ (s_heap s) _ subs out h r FS (proj1 R) B Q P0 P2). exact E.
  Qed.

  Lemma wexec_all_room cs : forall s s', Forall (ring_ok zero one add mul) cs -> sound s -> all_allowed zero one add mul eqb cs s -> all_roomy cs s ->
    exec_all cs s = Ok s' -> wexec_all W bld zero one add mul eqb cs s = Ok s'.
  Proof.
    induction cs as [|c cs IH]; intros s s' RG S A R E; cbn [Prog.exec_all WordOps.wexec_all] in *; [exact E|]. apply bind_Ok_inv in E as (s1 & X & E). destruct A as [A1 A2], R as (R1 & LP & R2).
    pose proof (R2 _ X) as R3. assert (R4 : roomy s1) by (destruct cs; apply R3). rewrite (wexec_room c s s1 (Forall_inv RG) S A1 R1 LP X R4). cbn [bind].
    apply IH; auto; [now apply Forall_inv_tail in RG|]. exact (proj2 (exec_good zero one add mul eqb c s (Forall_inv RG) S A1) _ X).
  Qed.
End RoomProg.

(** A program whose arrays have room in the words of the machine gives, in both builds, what the
    computation with unbounded sizes gives. *)
Theorem C81_room : forall T (zero one : T) add mul eqb W bld cs s s', Forall (ring_ok zero one add mul) cs -> sound s -> all_allowed zero one add mul eqb cs s ->
  all_roomy W zero one add mul eqb cs s -> exec_all zero one add mul eqb cs s = Ok s' -> wexec_all W bld zero one add mul eqb cs s = Ok s'.
Proof. intros. now apply wexec_all_room. Qed.
Print Assumptions C81_room.

Lemma prod_incl (dm : Z -> nat) ls : forall base, NoDup ls -> incl ls base -> pos (map dm base) -> prod (map dm ls) <= prod (map dm base).
Proof.
  induction ls as [|l ls IH]; intros base N I P; [change (prod (map dm [])) with 1; apply pos_prod in P; lia|]. inversion N; subst.
  destruct (in_split l base (I l (or_introl eq_refl))) as (b1 & b2 & ->). cbn [map]. rewrite map_app in *. cbn [map] in *. rewrite prod_app, !prod_cons. apply Forall_app in P as [P1 P2]. inversion P2; subst.
  specialize (IH (b1 ++ b2)). rewrite map_app, prod_app in IH. rewrite (Nat.mul_comm (prod (map dm b1))), <- Nat.mul_assoc, (Nat.mul_comm (prod (map dm b2))).
  apply Nat.mul_le_mono_l. apply IH; [assumption| |apply Forall_app; auto].
  intros x X. specialize (I x (or_intror X)). rewrite in_app_iff in *. destruct I as [I|[->|I]]; [now left|contradiction|now right].
Qed.

(** the program of C62 followed by the outer product of two rows, with words of
    18 values; its outer product has 9 elements *)
Definition outer_prog : list (@cmd nat) := firstn 9 prog ++ [CEinsum [4; 4] [[105]; [106]]%Z [105; 106]%Z].
Lemma small_all {T} W (h : heap T) : Forall (fun o => match o with Some l => 2 * length l <= W | None => True end) h -> small W h.
Proof. intros F b l E. apply nth_error_In in E. exact (proj1 (Forall_forall _ _) F _ E). Qed.
Example C81_room_ex : all_roomy 18 0 1 Nat.add Nat.mul Nat.eqb outer_prog (mkState [] [] []) /\
  exists s, exec_all 0 1 Nat.add Nat.mul Nat.eqb outer_prog (mkState [] [] []) = Ok s /\ length (s_heap s) = 5 /\ ~ roomy 17 s.
Proof.
  Ltac have := split; [apply small_all; repeat constructor; cbn; lia|repeat constructor; cbn; lia].
  Ltac rstep := split; [have|split; [|let s := fresh in let E := fresh in intros s E; vm_compute in E; injection E as <-]].
  split.
  - cbn [firstn prog outer_prog app all_roomy]. do 9 (rstep; [exact I|]). rstep.
    + intros dm ls F N IN. inversion F as [|? ? ? ? F1 F']; subst. inversion F' as [|? ? ? ? F2 _]; subst. specialize (F1 _ _ eq_refl). specialize (F2 _ _ eq_refl). cbn [a_shape map] in F1, F2.
      injection F1 as F1. injection F2 as F2. assert (H : prod (map dm ls) <= prod (map dm [105; 106]%Z)); [|cbn [map] in H; rewrite <- F1, <- F2 in H; cbn in H; lia].
      apply prod_incl; [exact N| |cbn [map]; rewrite <- F1, <- F2; repeat constructor].
      intros l I. destruct (IN l I) as (sub & [<-|[<-|[]]] & [<-|[]]); [now left|right; now left].
    + split; [have|exact I].
  - eexists. split; [vm_compute; reflexivity|]. split; [reflexivity|]. intros [S _]. specialize (S 4 _ eq_refl). cbn [length] in S. lia.
Qed.
