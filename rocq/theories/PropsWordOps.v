(** PropsWordOps.v: operations and whole programs on machine words (C81). *)
From Coq Require Import List Arith Lia Bool ZArith.
From Verif Require Import Base Spec Layout SpecFacts LayoutFacts Views ViewsFacts ViewsFacts2 ViewsFacts3 Kernels Access HeapFacts KernelFacts OpFacts
  AccessFacts Chain ChainFacts PropsViews PropsOps Reduce Einsum EinsumParse Nested PropsEinsum Prog PropsProg Word PropsWord WordViews PropsWordViews WordOps.
Import ListNotations.
Open Scope res_scope.

Ltac up1 := first [ apply upto_refl | (apply upto_same; intros ? _) ].

(** ** With overflow checks: the result of the nat model, or a panic *)
Section CheckedOps.
  Variable W : nat.
  Local Notation Ck := Checked.

  Lemma wcollapse_upto sh st : upto (wcollapse W Ck sh st) (Ok (collapse sh st)).
  Proof. destruct sh, st; cbn [wcollapse collapse]; try apply upto_refl. apply wcollapse_go_upto. Qed.

  Lemma wuniform_upto sh st : upto (wuniform W Ck sh st) (Ok (has_uniform_stride sh st)).
  Proof. destruct sh, st; cbn [wuniform has_uniform_stride]; try apply upto_refl. apply wuniform_go_upto. Qed.

  Lemma wfresh_upto b n sh : upto (wfresh W Ck b n sh) (Ok (fresh_arr b n sh)).
  Proof. unfold wfresh. eapply upto_val; [apply wstrides_upto|]. rewrite reshape_strides_1. apply upto_refl. Qed.

  Lemma wfrom_buffer_upto {T} (h : heap T) sh d : upto (wfrom_buffer W Ck h sh d) (Ok (from_buffer h sh d)).
  Proof. unfold wfrom_buffer, from_buffer. destruct (alloc h d) as [h' b]. eapply upto_val; [apply wfresh_upto|apply upto_refl]. Qed.

  Lemma wfull_upto {T} (h : heap T) x sh : upto (wfull W Ck h x sh) (nd_full h x sh).
  Proof.
    unfold wfull, nd_full. eapply upto_val; [apply wprod_upto|]. up1. eapply upto_val; [apply wstrides_upto|]. rewrite reshape_strides_1.
    unfold from_buffer. destruct (alloc h _). apply upto_refl.
  Qed.

  Lemma wnew_upto {T} (h : heap T) ks d : upto (wnew W Ck h ks d) (nd_new h ks d).
  Proof. unfold wnew, nd_new. do 5 up1. apply wfrom_buffer_upto. Qed.

  Section Binary.
    Context {T : Type}.
    Variable f : T -> T -> res T.

    Lemma wk_xn_upto h l sh st r rs d n : upto (wk_xn W Ck f h l sh st r rs d n) (k_xn f h l sh st r rs d n).
    Proof. apply upto_bind; [apply wfig_list_upto|]. intros. up1. Qed.
    Lemma wk_nx_upto h l ls r sh st d n : upto (wk_nx W Ck f h l ls r sh st d n) (k_nx f h l ls r sh st d n).
    Proof. apply upto_bind; [apply wfig_list_upto|]. intros. up1. Qed.
    Lemma wk_xx_upto h l sh st r rsh rst d : upto (wk_xx W Ck f h l sh st r rsh rst d) (k_xx f h l sh st r rsh rst d).
    Proof. apply upto_bind; [apply wfig_list_upto|]. intros. apply upto_bind; [apply wfig_list_upto|]. intros. up1. Qed.

    Lemma wk_scalar_upto h p sh st c d : upto (wk_scalar W Ck f h p sh st c d) (k_scalar f h p sh st c d).
    Proof.
      unfold wk_scalar, k_scalar. destruct st as [|s st]; [up1|]. eapply upto_val; [apply wcollapse_upto|]. destruct (collapse sh (s :: st)) as [sh' str].
      up1. destruct (length sh' =? 1).
      - up1. destruct (Nat.eqb_spec v 1) as [-> |]; up1.
      - eapply upto_val; [apply wprod_upto|apply wk_xn_upto].
    Qed.

    Lemma wk_binary_upto h l lst r rst d sh : upto (wk_binary W Ck f h l lst r rst d sh) (k_binary f h l lst r rst d sh).
    Proof.
      unfold wk_binary, k_binary. destruct ((length lst =? 0) && (length rst =? 0)); [up1|].
      eapply upto_val; [apply wcollapse_upto|]. eapply upto_val; [apply wcollapse_upto|]. destruct (collapse sh lst) as [lsh ls]. destruct (collapse sh rst) as [rsh rs].
      do 4 up1. cbv zeta.
      repeat match goal with |- upto (if ?b then _ else _) (if ?b then _ else _) => destruct b end;
        first [apply upto_refl|apply wk_xn_upto|apply wk_nx_upto|apply wk_xx_upto].
    Qed.

    Lemma wbinary_upto z h a b : upto (wbinary W Ck f z h a b) (nd_binary f z h a b).
    Proof.
      unfold wbinary, nd_binary. do 3 up1. eapply upto_val; [apply wprod_upto|]. destruct (alloc h _). apply upto_bind; [apply wk_binary_upto|]. intros h2 _.
      eapply upto_val; [apply wfresh_upto|apply upto_refl].
    Qed.

    Lemma wscalar_op_upto z h a c : upto (wscalar_op W Ck f z h a c) (nd_scalar_op f z h a c).
    Proof.
      unfold wscalar_op, nd_scalar_op. eapply upto_val; [apply wprod_upto|]. destruct (alloc h _). apply upto_bind; [apply wk_scalar_upto|]. intros h2 _.
      eapply upto_val; [apply wfresh_upto|apply upto_refl].
    Qed.

    Lemma wv_broadcast_upto a sh : upto (wv_broadcast_to W Ck a sh) (nd_broadcast_to a sh).
    Proof. unfold wv_broadcast_to, nd_broadcast_to. do 2 up1. eapply upto_val; [apply wrv_upto|apply upto_refl]. Qed.

    Lemma wassign_upto h a b : upto (wassign W Ck f h a b) (nd_assign f h a b).
    Proof.
      unfold wassign, nd_assign. up1. destruct (list_eqb (a_shape b) (a_shape a)); [apply wk_binary_upto|].
      apply upto_bind; [apply wv_broadcast_upto|]. intros b' _. apply wk_binary_upto.
    Qed.

    Lemma wassign_scalar_upto h a c : upto (wassign_scalar W Ck f h a c) (nd_assign_scalar f h a c).
    Proof. unfold wassign_scalar, nd_assign_scalar. up1. apply wk_scalar_upto. Qed.
  End Binary.

  Lemma wunary_upto {T} (g : T -> res T) z h a : upto (wunary W Ck g z h a) (nd_unary g z h a).
  Proof.
    unfold wunary, nd_unary. eapply upto_val; [apply wprod_upto|]. destruct (alloc h _) as [h1 b]. apply upto_bind.
    - unfold wk_unary, k_unary. destruct (a_shape a) as [|n sh]; [up1|]. eapply upto_val; [apply wcollapse_upto|]. destruct (collapse _ _) as [sh' str].
      destruct (length sh' =? 1).
      + do 2 up1. destruct (Nat.eqb_spec v0 0) as [-> |]; [up1|]. destruct (Nat.eqb_spec v0 1) as [-> |]; up1.
      + apply upto_bind; [apply wfig_list_upto|]. intros. up1.
    - intros h2 _. eapply upto_val; [apply wfresh_upto|apply upto_refl].
  Qed.

  Section Access.
    Context {T : Type}.
    Implicit Types (h : heap T) (a : arr).

    Lemma wflatiter_upto h a : upto (wflatiter W Ck h a) (nd_flatiter h a).
    Proof. apply upto_bind; [apply wfig_list_upto|]. intros. up1. Qed.

    Lemma woffset_upto idx : forall st acc, upto (woffset_from W Ck acc idx st) (Ok (acc + index_offset idx st)).
    Proof.
      induction idx as [|i idx IH]; intros [|s st] acc; cbn [woffset_from index_offset]; try (right; f_equal; lia).
      eapply upto_val; [apply word_upto|]. eapply upto_val; [apply word_upto|]. rewrite Nat.add_assoc. apply IH.
    Qed.

    Lemma windex_upto h a idx : upto (windex W Ck h a idx) (nd_index h a idx).
    Proof. unfold windex, nd_index. up1. eapply upto_val; [apply woffset_upto|]. up1. Qed.

    Lemma windex_set_upto h a idx v : upto (windex_set W Ck h a idx v) (nd_index_set h a idx v).
    Proof. unfold windex_set, nd_index_set. up1. eapply upto_val; [apply woffset_upto|]. up1. Qed.

    Lemma wvalue_upto h a : upto (wvalue W Ck h a) (nd_value h a).
    Proof. unfold wvalue, nd_value. eapply upto_val; [apply wprod_upto|]. up1. Qed.

    Lemma wclone_data_upto h a : upto (wclone_data W Ck h a) (clone_data h a).
    Proof.
      unfold wclone_data, clone_data. destruct (f_contig (a_fl a)); [up1|]. unfold wclone_strided, clone_strided.
      eapply upto_val; [apply wcollapse_upto|]. destruct (collapse _ _) as [sh str]. destruct str as [|s str]; [up1|].
      eapply upto_val; [apply wprod_upto|]. apply upto_bind; [|intros; up1].
      destruct (last (s :: str) 0 =? 1); (apply upto_bind; [apply wfig_list_upto|intros; up1]).
    Qed.

    Lemma wclone_upto h a : upto (wclone W Ck h a) (nd_clone h a).
    Proof. apply upto_bind; [apply wclone_data_upto|]. intros d _. apply wfrom_buffer_upto. Qed.

    Lemma wflatten_upto h a : upto (wflatten W Ck h a) (nd_flatten h a).
    Proof. apply upto_bind; [apply wclone_data_upto|]. intros d _. eapply upto_val; [apply wprod_upto|]. apply wfrom_buffer_upto. Qed.

    Lemma wequal_upto eqb h a b : upto (wequal W Ck eqb h a b) (nd_eq eqb h a b).
    Proof.
      unfold wequal, nd_eq. destruct (list_eqb _ _); [|up1]. apply upto_bind; [apply wfig_list_upto|]. intros. apply upto_bind; [apply wfig_list_upto|]. intros. up1.
    Qed.

    Lemma loop_ptr_upto (f g : heap T -> ptr -> res (heap T)) n s : (forall h p, upto (f h p) (g h p)) -> forall h p, upto (loop_ptr f h p n s) (loop_ptr g h p n s).
    Proof. intros H. induction n as [|n IH]; intros h p; cbn [loop_ptr]; [up1|]. apply upto_bind; [apply H|]. intros h' _. apply IH. Qed.

    Lemma wk_fill_upto v sh : forall h p st len, upto (wk_fill W Ck h p sh st len v) (k_fill h p sh st len v).
    Proof.
      induction sh as [|n sh IH]; intros h p st len.
      - cbn [wk_fill k_fill]. eapply upto_val; [apply wuniform_upto|]. cbn [has_uniform_stride]. cbn [Nat.eqb]. eapply upto_val; [apply wprod_upto|apply upto_refl].
      - cbn [wk_fill k_fill]. eapply upto_val; [apply wuniform_upto|]. destruct (has_uniform_stride (n :: sh) st) as [s|].
        + destruct (s =? 1); [up1|]. eapply upto_val; [apply wprod_upto|apply upto_refl].
        + destruct st as [|s st]; [up1|]. apply loop_ptr_upto. intros h' p'. do 2 up1. eapply upto_val; [apply word_upto|]. apply IH.
    Qed.

    Lemma wfill_upto h a v : upto (wfill W Ck h a v) (nd_fill h a v).
    Proof. apply wk_fill_upto. Qed.
  End Access.

  Section Reduce.
    Context {T : Type}.
    Variable g : T -> T -> res T.

    Lemma wreduce_upto d (h : heap T) a : upto (wreduce W Ck g d h a) (nd_reduce g d h a).
    Proof.
      apply upto_bind; [|intros v _; apply wfull_upto]. unfold wk_reduce, k_reduce. eapply upto_val; [apply wuniform_upto|].
      destruct (has_uniform_stride _ _) as [s|].
      - eapply upto_val; [apply wprod_upto|]. destruct (Nat.eqb_spec s 1) as [-> |]; up1.
      - apply upto_bind; [apply wfig_list_upto|]. intros. up1.
    Qed.

    Lemma wrss_upto mask : forall sh, upto (wrss_go W Ck mask sh) (Ok (rss_go mask sh)).
    Proof.
      induction mask as [|m mask IH]; intros [|n sh]; cbn [wrss_go rss_go]; try apply upto_refl. eapply upto_val; [apply IH|].
      destruct (rss_go mask sh) as [[s nsh] nst]. destruct m; [up1|]. eapply upto_val; [apply word_upto|apply upto_refl].
    Qed.

    Lemma wreduced_upto axes sh : upto (wreduced W Ck axes sh) (reduced_shape_and_stride axes sh).
    Proof.
      unfold wreduced, reduced_shape_and_stride. do 2 up1. eapply upto_val; [apply wrss_upto|]. destruct (rss_go _ _) as [[s nsh] nst]. up1.
    Qed.

    Lemma wreduce_along_upto d (h : heap T) a axes : upto (wreduce_along W Ck g d h a axes) (nd_reduce_along g d h a axes).
    Proof.
      unfold wreduce_along, nd_reduce_along. apply upto_bind; [apply wreduced_upto|]. intros [osh mst] _. eapply upto_val; [apply wcollapse_upto|].
      destruct (collapse _ _) as [msh mst']. eapply upto_val; [apply wprod_upto|]. apply upto_bind; [apply wfig_list_upto|]. intros js _.
      apply upto_bind; [apply wfig_list_upto|]. intros is _. up1. apply wfrom_buffer_upto.
    Qed.
  End Reduce.

  Lemma wadd_lists_upto a : forall b, upto (wadd_lists W Ck a b) (Ok (add_lists a b)).
  Proof. induction a as [|x a IH]; intros [|y b]; cbn [wadd_lists add_lists]; try apply upto_refl. eapply upto_val; [apply word_upto|]. eapply upto_val; [apply IH|apply upto_refl]. Qed.

  Lemma wsub_lists_upto d a : forall b, upto (wsub_lists W Ck a b d) (sub_lists a b d).
  Proof.
    induction a as [|x a IH]; intros [|y b]; cbn [wsub_lists sub_lists]; try apply upto_refl. eapply upto_val; [apply word_upto|].
    apply upto_bind; [apply wsub_upto|]. intros z _. apply upto_bind; [apply IH|]. intros. up1.
  Qed.

  Lemma wmfig_carry_upto sh : forall st idx flat, upto (wmfig_carry W Ck sh st idx flat) (mfig_carry sh st idx flat).
  Proof.
    induction sh as [|n sh IH]; intros [|s st] [|i idx] flat; cbn [wmfig_carry mfig_carry]; try apply upto_refl. apply upto_bind; [apply IH|].
    intros [[idx1 flat1] c] _. destruct c; [|up1]. apply upto_bind; [apply wsub_upto|]. intros i' _. destruct (negb (i' =? 0)).
    - eapply upto_val; [apply wadd_lists_upto|apply upto_refl].
    - apply upto_bind; [apply wsub_upto|]. intros d _. apply upto_bind; [apply wsub_lists_upto|]. intros. up1.
  Qed.

  Lemma wmfig_increment_upto g : upto (wmfig_increment W Ck g) (mfig_increment g).
  Proof. apply upto_bind; [apply wmfig_carry_upto|]. intros. up1. Qed.

  Lemma wmfig_from_upto n sh st : upto (wmfig_from W Ck n sh st) (mfig_from n sh st).
  Proof. unfold wmfig_from, mfig_from. do 3 up1. eapply upto_val; [apply wprod_upto|apply upto_refl]. Qed.

  Lemma wmerge_upto labels sh st n : forall ax cmap nsh nst, upto (wmerge_go W Ck labels sh st ax n cmap nsh nst) (merge_go labels sh st ax n cmap nsh nst).
  Proof.
    induction n as [|n IH]; intros ax cmap nsh nst; cbn [wmerge_go merge_go]; [up1|]. do 3 up1. destruct (0 <=? v)%Z; [apply IH|].
    up1. destruct v2 as [i|]; [|up1]. up1. eapply upto_val; [apply word_upto|]. do 3 up1. apply IH.
  Qed.

  Lemma wreshape_operand_upto a labels : upto (wreshape_operand W Ck a labels) (reshape_operand a labels).
  Proof.
    unfold wreshape_operand, reshape_operand. destruct (forallb _ labels); [eapply upto_val; [apply wrv_upto|apply upto_refl]|].
    apply upto_bind; [apply wmerge_upto|]. intros [[cmap nsh] nst] _. up1. eapply upto_val; [apply wrv_upto|apply upto_refl].
  Qed.

  Lemma wstride_sum_upto labels st label n : forall i acc, upto (wstride_sum W Ck labels st label i n acc) (stride_sum labels st label i n acc).
  Proof.
    induction n as [|n IH]; intros i acc; cbn [wstride_sum stride_sum]; [up1|]. up1. apply upto_bind; [|intros; apply IH].
    destruct (label =? v)%Z; [|up1]. up1. apply word_upto.
  Qed.

  Lemma mapM_upto {A B} (f g : A -> res B) l : (forall x, upto (f x) (g x)) -> upto (mapM f l) (mapM g l).
  Proof. intros H. induction l as [|x l IH]; cbn [mapM]; [up1|]. apply upto_bind; [apply H|]. intros y _. apply upto_bind; [apply IH|]. intros. up1. Qed.

  Lemma woperand_strides_upto labels st il : upto (woperand_strides W Ck labels st il) (operand_strides labels st il).
  Proof. apply mapM_upto. intros l. destruct (l =? 0)%Z; [up1|]. apply wstride_sum_upto. Qed.

  Lemma wall_strides_upto il ops : forall labels, upto (wall_strides W Ck ops labels il) (all_strides ops labels il).
  Proof.
    induction ops as [|a ops IH]; intros [|l labels]; cbn [wall_strides all_strides]; try apply upto_refl. apply upto_bind; [apply wreshape_operand_upto|].
    intros [l' st] _. apply upto_bind; [apply woperand_strides_upto|]. intros s _. apply upto_bind; [apply IH|]. intros. up1.
  Qed.

  Lemma wprepare_upto ops subs out : upto (wprepare W Ck ops subs out) (prepare_einsum ops subs out).
  Proof.
    unfold wprepare, prepare_einsum. do 2 up1. destruct v0 as [[[labels0 counts] dims] mbd]. up1. apply upto_bind.
    - destruct ops as [|a [|]]; try apply upto_refl. destruct (labels0 ++ _) as [|l ls]; [apply upto_refl|]. apply upto_bind; [apply wrse_upto|]. intros. up1.
    - intros _ _. up1. apply upto_bind; [apply wall_strides_upto|]. intros tmp _. eapply upto_val; [apply wstrides_upto|]. rewrite reshape_strides_1. apply upto_refl.
  Qed.

  Section Sop.
    Context {T : Type}.
    Variable zero one : T.
    Variable add mul : T -> T -> res T.
    Variable fma : T -> T -> T -> res T.

    Lemma wprod_at_upto (h : heap T) k ps : forall ss acc, upto (wprod_at W Ck mul h ps ss k acc) (prod_at mul h ps ss k acc).
    Proof. induction ps as [|p ps IH]; intros [|s ss] acc; cbn [wprod_at prod_at]; try apply upto_refl. eapply upto_val; [apply word_upto|]. do 2 up1. apply IH. Qed.

    Lemma wsop_generic_go_upto ps ss dst ds k : forall h, upto (wsop_generic_go W Ck one add mul h ps ss dst ds k) (sop_generic_go one add mul h ps ss dst ds k).
    Proof.
      induction k as [|k IH]; intros h; cbn [wsop_generic_go sop_generic_go]; [up1|]. eapply upto_val; [apply word_upto|].
      apply upto_bind; [apply wprod_at_upto|]. intros v _. up1. apply IH.
    Qed.
    Lemma wsop_generic_upto h ps ss dst ds n : upto (wsop_generic W Ck one add mul h ps ss dst ds n) (sop_generic one add mul h ps ss dst ds n).
    Proof. unfold wsop_generic, sop_generic. up1. apply wsop_generic_go_upto. Qed.

    Lemma wsop_out0_go_upto h ps ss k : forall s, upto (wsop_out0_go W Ck one add mul h ps ss k s) (sop_out0_go one add mul h ps ss k s).
    Proof. induction k as [|k IH]; intros s; cbn [wsop_out0_go sop_out0_go]; [up1|]. apply upto_bind; [apply wprod_at_upto|]. intros v _. up1. apply IH. Qed.
    Lemma wsop_out0_upto h ps ss dst n : upto (wsop_out0 W Ck zero one add mul h ps ss dst n) (sop_out0 zero one add mul h ps ss dst n).
    Proof. unfold wsop_out0, sop_out0. up1. apply upto_bind; [apply wsop_out0_go_upto|]. intros. up1. Qed.

    Lemma wsop_slice_upto h ps ss dst ds n : upto (wsop_slice W Ck zero one add mul h ps ss dst ds n) (sop_slice zero one add mul h ps ss dst ds n).
    Proof. unfold wsop_slice, sop_slice. destruct (ds =? 0); [apply wsop_out0_upto|apply wsop_generic_upto]. Qed.

    Lemma wsop_two_upto h p0 s0 p1 s1 dst ds n : upto (wsop_two W Ck zero one add mul fma h p0 s0 p1 s1 dst ds n) (sop_two zero one add mul fma h p0 s0 p1 s1 dst ds n).
    Proof.
      unfold wsop_two, sop_two. cbv zeta. set (code := _ + _). clearbody code.
      do 8 (destruct code as [|code]; [first [apply upto_refl|destruct (ds =? 0); [apply wsop_out0_upto|apply wsop_generic_upto]]|]).
      destruct (ds =? 0); [apply wsop_out0_upto|apply wsop_generic_upto].
    Qed.

    Lemma wsop_fixed_upto h ps ss dst ds n : upto (wsop_fixed W Ck zero one add mul fma h ps ss dst ds n) (sop_fixed zero one add mul fma h ps ss dst ds n).
    Proof.
      unfold wsop_fixed, sop_fixed. destruct ps as [|p0 [|p1 [|]]], ss as [|s0 [|s1 [|]]]; try apply wsop_two_upto; (destruct (ds =? 0); [apply wsop_out0_upto|apply wsop_generic_upto]).
    Qed.

    Lemma call_upto (f g : heap T -> list ptr -> list nat -> ptr -> nat -> nat -> res (heap T)) : (forall h ps ss d ds n, upto (f h ps ss d ds n) (g h ps ss d ds n)) ->
      forall h bases dst o i n, upto (call_sop f h bases dst o i n) (call_sop g h bases dst o i n).
    Proof. intros H h bases dst o i n. apply H. Qed.

    Lemma wscale_upto k l : upto (wscale W Ck k l) (Ok (scale k l)).
    Proof.
      induction l as [|s l IH]; [apply upto_refl|]. unfold wscale in *. cbn [mapM]. eapply upto_val; [apply word_upto|]. eapply upto_val; [exact IH|]. apply upto_refl.
    Qed.

    Lemma for_each_upto {A S} (f g : A -> S -> res S) l : (forall x s, upto (f x s) (g x s)) -> forall s, upto (for_each f l s) (for_each g l s).
    Proof. intros H. induction l as [|x l IH]; intros s; cbn [for_each]; [apply upto_refl|]. apply upto_bind; [apply H|]. intros s' _. apply IH. Qed.

    Lemma wunspec_go_upto bases dst inner n0 k : forall g h, upto (wunspec_go W Ck zero one add mul k g h bases dst inner n0) (unspec_go zero one add mul k g h bases dst inner n0).
    Proof.
      induction k as [|k IH]; intros g h; cbn [wunspec_go unspec_go]; [up1|]. apply upto_bind; [apply call_upto, wsop_slice_upto|]. intros h' _.
      apply upto_bind; [apply wmfig_increment_upto|]. intros. apply IH.
    Qed.

    Lemma wunspecialized_upto h bases st sh dst : upto (wunspecialized W Ck zero one add mul h bases st sh dst) (unspecialized zero one add mul h bases st sh dst).
    Proof.
      unfold wunspecialized, unspecialized. destruct st as [|inner st], sh as [|n0 sh]; try apply upto_refl. apply upto_bind; [apply wmfig_from_upto|]. intros g _.
      eapply upto_val; [apply wprod_upto|]. apply wunspec_go_upto.
    Qed.

    Lemma wrun_upto h bases st sh dst : upto (wrun_einsum W Ck zero one add mul fma h bases st sh dst) (run_einsum zero one add mul fma h bases st sh dst).
    Proof.
      unfold wrun_einsum, run_einsum. destruct (_ || _); [|apply wunspecialized_upto].
      destruct st as [|d0 [|d1 [|d2 [|]]]], sh as [|n0 [|n1 [|n2 [|]]]]; try apply wunspecialized_upto.
      - unfold weinsum_2labels, einsum_2labels. do 2 up1. apply for_each_upto. intros i h'. eapply upto_val; [apply wscale_upto|]. apply call_upto, wsop_fixed_upto.
      - unfold weinsum_3labels, einsum_3labels. do 3 up1. apply for_each_upto. intros i h'. apply for_each_upto. intros j h''.
        eapply upto_val; [apply wscale_upto|]. eapply upto_val; [apply wscale_upto|]. eapply upto_val; [apply wadd_lists_upto|]. apply call_upto, wsop_fixed_upto.
    Qed.

    Lemma weinsum_upto h ops subs out : upto (weinsum W Ck zero one add mul fma h ops subs out) (nd_einsum zero one add mul fma h ops subs out).
    Proof.
      unfold weinsum, nd_einsum. apply upto_bind; [apply wprepare_upto|]. intros [[st sh] osh] _. eapply upto_val; [apply wprod_upto|]. destruct (alloc h _) as [h1 b].
      apply upto_bind; [apply wrun_upto|]. intros h2 _. eapply upto_val; [apply wfresh_upto|apply upto_refl].
    Qed.

    Lemma wmatrix_matrix_upto h a b rs dst : upto (wmatrix_matrix W Ck zero one add mul fma h a b rs dst) (matrix_matrix zero one add mul fma h a b rs dst).
    Proof.
      unfold wmatrix_matrix, matrix_matrix, weinsum_into, einsum_into_ptr. apply upto_bind; [apply wprepare_upto|]. intros [[st sh] osh] _.
      eapply upto_val; [apply wuniform_upto|]. up1. eapply upto_val; [apply wprod_upto|]. apply upto_bind; [apply wk_fill_upto|]. intros h1 _. apply wrun_upto.
    Qed.

    Lemma wdot_upto h a b : upto (wdot W Ck zero add mul h a b) (nd_dot zero add mul h a b).
    Proof.
      unfold wdot, nd_dot. destruct (a_shape a) as [|n [|]], (a_shape b) as [|m [|]], (a_stride a) as [|s [|]], (a_stride b) as [|t [|]]; apply upto_refl.
    Qed.

    Lemma wmatmul_upto h a b : upto (wmatmul W Ck zero one add mul fma h a b) (nd_matmul zero one add mul fma h a b).
    Proof.
      unfold wmatmul, nd_matmul. destruct (a_shape a) as [|n [|k [|]]], (a_shape b) as [|n' [|m [|]]]; try apply upto_refl; try apply wdot_upto.
      - up1. destruct (a_stride a) as [|rs [|s [|]]], (a_stride b) as [|t [|]]; try apply upto_refl. destruct (alloc h _) as [h1 blk]. up1.
        eapply upto_val; [apply wfresh_upto|apply upto_refl].
      - up1. apply upto_bind; [apply wfull_upto|]. intros [h1 r] _. apply upto_bind; [apply wmatrix_matrix_upto|]. intros. up1.
    Qed.

    Lemma wbmm_go_upto sa sb rst rs n : forall h a b dst, upto (wbmm_go W Ck zero one add mul fma h a b sa sb rst rs dst n) (bmm_go zero one add mul fma h a b sa sb rst rs dst n).
    Proof. induction n as [|n IH]; intros h a b dst; cbn [wbmm_go bmm_go]; [up1|]. apply upto_bind; [apply wmatrix_matrix_upto|]. intros. apply IH. Qed.

    Lemma wslice_along_upto a i ix : upto (wv_slice_along W Ck a i ix) (nd_slice_along a i ix).
    Proof.
      pose proof (view_checked W (VSliceAlong i ix) a) as H. cbn [wview_by view_by] in H.
      destruct (wv_slice_along W Ck a i ix) as [x| |], (nd_slice_along a i ix) as [y| |]; cbn [bind] in H; destruct H as [H|H]; try discriminate; try (now left); try (now right).
      injection H as ->. now right.
    Qed.
    Lemma wdiagonal_upto a o i j : upto (wv_diagonal W Ck a o i j) (nd_offset_diagonal_along a o i j).
    Proof.
      pose proof (view_checked W (VDiagonal o i j) a) as H. cbn [wview_by view_by] in H.
      destruct (wv_diagonal W Ck a o i j) as [x| |], (nd_offset_diagonal_along a o i j) as [y| |]; cbn [bind] in H; destruct H as [H|H]; try discriminate; try (now left); try (now right).
      injection H as ->. now right.
    Qed.

    Lemma wbmm_upto h a b : upto (wbmm W Ck zero one add mul fma h a b) (nd_bmm zero one add mul fma h a b).
    Proof.
      unfold wbmm, nd_bmm. destruct (a_shape a) as [|n [|i [|j [|]]]], (a_shape b) as [|n' [|j' [|k [|]]]]; try apply upto_refl. up1.
      apply upto_bind; [apply wfull_upto|]. intros [h1 r] _. apply upto_bind; [apply wslice_along_upto|]. intros la _. apply upto_bind; [apply wslice_along_upto|]. intros lb _.
      do 3 up1. apply upto_bind; [apply wbmm_go_upto|]. intros. up1.
    Qed.

    Lemma wtrace_upto h a o i j : upto (wtrace W Ck zero add h a o i j) (nd_trace zero add h a o i j).
    Proof. apply upto_bind; [apply wdiagonal_upto|]. intros d _. apply wreduce_along_upto. Qed.
  End Sop.

  Section Prog.
    Context {T : Type}.
    Variable zero one : T.
    Variable add mul : T -> T -> T.
    Variable eqb : T -> T -> bool.

    Lemma wexec_upto c s : upto (wexec W Ck zero one add mul eqb c s) (exec zero one add mul eqb c s).
    Proof.
      destruct c; cbn [wexec exec]; unfold made, stored, only_read; repeat up1; (apply upto_bind; [|intros; up1]).
      - apply wnew_upto.
      - apply wfull_upto.
      - apply view_checked.
      - apply wbinary_upto.
      - apply wscalar_op_upto.
      - apply wunary_upto.
      - apply wassign_upto.
      - apply wassign_scalar_upto.
      - apply wfill_upto.
      - apply windex_upto.
      - apply windex_set_upto.
      - apply wvalue_upto.
      - apply wflatiter_upto.
      - apply wequal_upto.
      - apply wclone_upto.
      - apply wflatten_upto.
      - apply wreduce_upto.
      - apply wreduce_along_upto.
      - apply wtrace_upto.
      - apply wmatmul_upto.
      - apply wbmm_upto.
      - apply weinsum_upto.
    Qed.

    Lemma wexec_all_upto cs : forall s, upto (wexec_all W Ck zero one add mul eqb cs s) (exec_all zero one add mul eqb cs s).
    Proof. induction cs as [|c cs IH]; intros s; cbn [wexec_all exec_all]; [apply upto_refl|]. apply upto_bind; [apply wexec_upto|]. intros s' _. apply IH. Qed.
  End Prog.
End CheckedOps.

(** ** Without overflow checks: the result of the build that has them, where it does not panic *)
Section Release.
  Variable W : nat.

  Lemma rel_word x : upto (word W Checked x) (word W Wrapping x).
  Proof. cbn [word]. destruct (Nat.ltb_spec x W); [right; now rewrite Nat.mod_small|now left]. Qed.

  Lemma rel_sub a b : upto (wsub W Checked a b) (wsub W Wrapping a b).
  Proof.
    cbn [wsub]. unfold csub. destruct (Nat.ltb_spec a b); cbn [bind]; [now left|]. destruct (Nat.ltb_spec (a - b) W); [right|now left].
    f_equal. replace (a + W - b) with ((a - b) + 1 * W) by lia. rewrite Nat.mod_add by lia. now rewrite Nat.mod_small.
  Qed.

  Ltac same := match goal with |- upto ?x ?y => constr_eq x y; exact (upto_refl x) end.
  Ltac rel lems := repeat first
    [ same | simple apply rel_word | simple apply rel_sub | lems
    | (simple apply upto_bind; [|intros ? _])
    | match goal with |- upto (match ?x with _ => _ end) (match ?x with _ => _ end) => destruct x end
    | match goal with |- upto (let '_ := ?x in _) (let '_ := ?x in _) => destruct x end ].
  Ltac none := fail.

  Lemma rel_prod_from sh : forall x y, upto x y -> upto (fold_left (fun acc n => v <- acc ;; word W Checked (v * n)) sh x) (fold_left (fun acc n => v <- acc ;; word W Wrapping (v * n)) sh y).
  Proof. induction sh as [|n sh IH]; intros x y H; cbn [fold_left]; [exact H|]. apply IH. apply upto_bind; [exact H|]. intros. apply rel_word. Qed.
  Lemma rel_prod sh : upto (wprod W Checked sh) (wprod W Wrapping sh).
  Proof. apply rel_prod_from, upto_refl. Qed.
  Lemma rel_strides acc sh : upto (wstrides W Checked acc sh) (wstrides W Wrapping acc sh).
  Proof. induction sh as [|n sh IH]; cbn [wstrides]; rel ltac:(simple apply IH). Qed.
  Lemma rel_uniform_go sh : forall s st, upto (wuniform_go W Checked s sh st) (wuniform_go W Wrapping s sh st).
  Proof. induction sh as [|n sh IH]; intros s [|s' st]; cbn [wuniform_go]; rel ltac:(simple apply IH). Qed.
  Lemma rel_uniform sh st : upto (wuniform W Checked sh st) (wuniform W Wrapping sh st).
  Proof. destruct sh, st; cbn [wuniform]; rel ltac:(simple apply rel_uniform_go). Qed.
  Lemma rel_flags fl sh st : upto (wflags W Checked fl sh st) (wflags W Wrapping fl sh st).
  Proof. unfold wflags. rel ltac:(simple apply rel_uniform). Qed.
  Lemma rel_rv m a sh st : upto (wreshaped_view W Checked m a sh st) (wreshaped_view W Wrapping m a sh st).
  Proof. unfold wreshaped_view. rel ltac:(first [simple apply rel_flags|simple apply rel_prod]). Qed.
  Lemma rel_rvo a o sh st : upto (wreshaped_view_with_offset W Checked a o sh st) (wreshaped_view_with_offset W Wrapping a o sh st).
  Proof. unfold wreshaped_view_with_offset. rel ltac:(first [simple apply rel_flags|simple apply rel_prod]). Qed.
  Lemma rel_length ix n : upto (windexed_length W Checked ix n) (windexed_length W Wrapping ix n).
  Proof. destruct ix; cbn [windexed_length]; rel none. Qed.
  Lemma rel_len sh : forall acc st, upto (wlen_from W Checked acc sh st) (wlen_from W Wrapping acc sh st).
  Proof. induction sh as [|n sh IH]; intros acc [|s st]; cbn [wlen_from]; rel ltac:(simple apply IH). Qed.
  Lemma rel_strided_len sh st : upto (wstrided_len W Checked sh st) (wstrided_len W Wrapping sh st).
  Proof. unfold wstrided_len. rel ltac:(simple apply rel_len). Qed.
  Lemma rel_slice_go ixs : forall o sh st, upto (wslice_go W Checked o ixs sh st) (wslice_go W Wrapping o ixs sh st).
  Proof. induction ixs as [|ix ixs IH]; intros o [|n sh] [|s st]; cbn [wslice_go]; rel ltac:(first [simple apply IH|simple apply rel_length]). Qed.
  Lemma rel_slice_along a i ix : upto (wv_slice_along W Checked a i ix) (wv_slice_along W Wrapping a i ix).
  Proof. unfold wv_slice_along. rel ltac:(first [simple apply rel_length|simple apply rel_strided_len|simple apply rel_flags]). Qed.
  Lemma rel_diagonal a o i j : upto (wv_diagonal W Checked a o i j) (wv_diagonal W Wrapping a o i j).
  Proof. unfold wv_diagonal. rel ltac:(simple apply rel_rvo). Qed.
  Lemma rel_broadcast a sh : upto (wv_broadcast_to W Checked a sh) (wv_broadcast_to W Wrapping a sh).
  Proof. unfold wv_broadcast_to. rel ltac:(simple apply rel_rv). Qed.
  Lemma rel_rse labels out sh st n : forall idim nsh nst, upto (wrse_go W Checked labels out sh st idim n nsh nst) (wrse_go W Wrapping labels out sh st idim n nsh nst).
  Proof. induction n as [|n IH]; intros idim nsh nst; cbn [wrse_go]; rel ltac:(simple apply IH). Qed.

  Lemma rel_view o a : upto (wview_by W Checked o a) (wview_by W Wrapping o a).
  Proof.
    destruct o; cbn [wview_by]; unfold wv_reshape, wv_transpose, wv_squeeze, wv_unsqueeze, wv_slice, wv_einsum;
      rel ltac:(first [simple apply rel_rv|simple apply rel_prod|simple apply rel_strides|simple apply rel_slice_along|simple apply rel_diagonal|simple apply rel_broadcast|simple apply rel_rse|simple apply rel_slice_go|simple apply rel_strided_len|simple apply rel_flags]).
  Qed.

  Lemma rel_collapse_go sh : forall n s st, upto (wcollapse_go W Checked n s sh st) (wcollapse_go W Wrapping n s sh st).
  Proof. induction sh as [|n' sh IH]; intros n s [|s' st]; cbn [wcollapse_go]; rel ltac:(simple apply IH). Qed.
  Lemma rel_collapse sh st : upto (wcollapse W Checked sh st) (wcollapse W Wrapping sh st).
  Proof. destruct sh, st; cbn [wcollapse]; rel ltac:(simple apply rel_collapse_go). Qed.
  Lemma rel_carry sh : forall st idx flat, upto (wfig_carry W Checked sh st idx flat) (wfig_carry W Wrapping sh st idx flat).
  Proof. induction sh as [|n sh IH]; intros [|s st] [|i idx] flat; cbn [wfig_carry]; rel ltac:(simple apply IH). Qed.
  Lemma rel_next g : upto (wfig_next W Checked g) (wfig_next W Wrapping g).
  Proof. unfold wfig_next. rel ltac:(simple apply rel_carry). Qed.
  Lemma rel_run fuel : forall g, upto (wfig_run W Checked fuel g) (wfig_run W Wrapping fuel g).
  Proof. induction fuel as [|fuel IH]; intros g; cbn [wfig_run]; rel ltac:(first [simple apply IH|simple apply rel_next]). Qed.
  Lemma rel_from sh st : upto (wfig_from W Checked sh st) (wfig_from W Wrapping sh st).
  Proof. unfold wfig_from. rel ltac:(first [simple apply rel_collapse|simple apply rel_prod]). Qed.
  Lemma rel_list sh st : upto (wfig_list W Checked sh st) (wfig_list W Wrapping sh st).
  Proof. unfold wfig_list. rel ltac:(first [simple apply rel_from|simple apply rel_run]). Qed.

  Lemma rel_fresh b n sh : upto (wfresh W Checked b n sh) (wfresh W Wrapping b n sh).
  Proof. unfold wfresh. rel ltac:(simple apply rel_strides). Qed.
  Lemma rel_from_buffer {T} (h : heap T) sh d : upto (wfrom_buffer W Checked h sh d) (wfrom_buffer W Wrapping h sh d).
  Proof. unfold wfrom_buffer. rel ltac:(simple apply rel_fresh). Qed.
  Lemma rel_full {T} (h : heap T) x sh : upto (wfull W Checked h x sh) (wfull W Wrapping h x sh).
  Proof. unfold wfull. rel ltac:(first [simple apply rel_prod|simple apply rel_strides]). Qed.

  Ltac base := first [simple apply rel_prod|simple apply rel_strides|simple apply rel_uniform|simple apply rel_rv|simple apply rel_collapse|simple apply rel_list|simple apply rel_fresh|simple apply rel_from_buffer|simple apply rel_full
                     |simple apply rel_view|simple apply rel_slice_along|simple apply rel_diagonal|simple apply rel_broadcast|simple apply rel_rse].

  Section Ops.
    Context {T : Type}.
    Implicit Types (h : heap T).

    Lemma rel_k_scalar f h p sh st c d : upto (wk_scalar W Checked f h p sh st c d) (wk_scalar W Wrapping f h p sh st c d).
    Proof. unfold wk_scalar, wk_xn. rel base. Qed.
    Lemma rel_k_binary f h l ls r rs d sh : upto (wk_binary W Checked f h l ls r rs d sh) (wk_binary W Wrapping f h l ls r rs d sh).
    Proof. unfold wk_binary, wk_xn, wk_nx, wk_xx. cbv zeta. rel base. Qed.
    Lemma rel_k_unary g h p sh st d : upto (wk_unary W Checked g h p sh st d) (wk_unary W Wrapping g h p sh st d).
    Proof. unfold wk_unary. rel base. Qed.
    Lemma rel_offset idx : forall st acc, upto (woffset_from W Checked acc idx st) (woffset_from W Wrapping acc idx st).
    Proof. induction idx as [|i idx IH]; intros [|s st] acc; cbn [woffset_from]; rel ltac:(simple apply IH). Qed.
    Lemma rel_clone_data h a : upto (wclone_data W Checked h a) (wclone_data W Wrapping h a).
    Proof. unfold wclone_data, wclone_strided. rel base. Qed.
    Lemma rel_fill v sh : forall h p st len, upto (wk_fill W Checked h p sh st len v) (wk_fill W Wrapping h p sh st len v).
    Proof.
      induction sh as [|n sh IH]; intros h p st len; cbn [wk_fill]; (apply upto_bind; [apply rel_uniform|]); intros [s|] _.
      - rel base.
      - apply upto_refl.
      - rel base.
      - destruct st as [|s st]; [apply upto_refl|]. apply loop_ptr_upto. intros h' p'. rel ltac:(simple apply IH).
    Qed.
    Lemma rel_k_reduce g d h p sh st : upto (wk_reduce W Checked g d h p sh st) (wk_reduce W Wrapping g d h p sh st).
    Proof. unfold wk_reduce. rel base. Qed.
    Lemma rel_rss mask : forall sh, upto (wrss_go W Checked mask sh) (wrss_go W Wrapping mask sh).
    Proof. induction mask as [|m mask IH]; intros [|n sh]; cbn [wrss_go]; rel ltac:(simple apply IH). Qed.
    Lemma rel_along g d h a axes : upto (wreduce_along W Checked g d h a axes) (wreduce_along W Wrapping g d h a axes).
    Proof. unfold wreduce_along, wreduced. rel ltac:(first [base|simple apply rel_rss]). Qed.

    Lemma rel_add_lists a : forall b, upto (wadd_lists W Checked a b) (wadd_lists W Wrapping a b).
    Proof. induction a as [|x a IH]; intros [|y b]; cbn [wadd_lists]; rel ltac:(simple apply IH). Qed.
    Lemma rel_sub_lists d a : forall b, upto (wsub_lists W Checked a b d) (wsub_lists W Wrapping a b d).
    Proof. induction a as [|x a IH]; intros [|y b]; cbn [wsub_lists]; rel ltac:(simple apply IH). Qed.
    Lemma rel_mcarry sh : forall st idx flat, upto (wmfig_carry W Checked sh st idx flat) (wmfig_carry W Wrapping sh st idx flat).
    Proof. induction sh as [|n sh IH]; intros [|s st] [|i idx] flat; cbn [wmfig_carry]; rel ltac:(first [simple apply IH|simple apply rel_add_lists|simple apply rel_sub_lists]). Qed.
    Lemma rel_increment g : upto (wmfig_increment W Checked g) (wmfig_increment W Wrapping g).
    Proof. unfold wmfig_increment. rel ltac:(simple apply rel_mcarry). Qed.
    Lemma rel_mfrom n sh st : upto (wmfig_from W Checked n sh st) (wmfig_from W Wrapping n sh st).
    Proof. unfold wmfig_from. rel base. Qed.
    Lemma rel_merge labels sh st n : forall ax cmap nsh nst, upto (wmerge_go W Checked labels sh st ax n cmap nsh nst) (wmerge_go W Wrapping labels sh st ax n cmap nsh nst).
    Proof. induction n as [|n IH]; intros ax cmap nsh nst; cbn [wmerge_go]; rel ltac:(simple apply IH). Qed.
    Lemma rel_operand a labels : upto (wreshape_operand W Checked a labels) (wreshape_operand W Wrapping a labels).
    Proof. unfold wreshape_operand. rel ltac:(first [simple apply rel_merge|simple apply rel_rv]). Qed.
    Lemma rel_stride_sum labels st label n : forall i acc, upto (wstride_sum W Checked labels st label i n acc) (wstride_sum W Wrapping labels st label i n acc).
    Proof. induction n as [|n IH]; intros i acc; cbn [wstride_sum]; rel ltac:(simple apply IH). Qed.
    Lemma rel_operand_strides labels st il : upto (woperand_strides W Checked labels st il) (woperand_strides W Wrapping labels st il).
    Proof. apply mapM_upto. intros l. rel ltac:(simple apply rel_stride_sum). Qed.
    Lemma rel_all_strides il ops : forall labels, upto (wall_strides W Checked ops labels il) (wall_strides W Wrapping ops labels il).
    Proof. induction ops as [|a ops IH]; intros [|l labels]; cbn [wall_strides]; rel ltac:(first [simple apply IH|simple apply rel_operand|simple apply rel_operand_strides]). Qed.
    Lemma rel_prepare ops subs out : upto (wprepare W Checked ops subs out) (wprepare W Wrapping ops subs out).
    Proof. unfold wprepare. cbv zeta. rel ltac:(first [simple apply rel_all_strides|simple apply rel_strides|simple apply rel_rse]). Qed.

    Section Sop.
      Variable zero one : T.
      Variable add mul : T -> T -> res T.
      Variable fma : T -> T -> T -> res T.

      Lemma rel_prod_at h k ps : forall ss acc, upto (wprod_at W Checked mul h ps ss k acc) (wprod_at W Wrapping mul h ps ss k acc).
      Proof. induction ps as [|p ps IH]; intros [|s ss] acc; cbn [wprod_at]; rel ltac:(simple apply IH). Qed.
      Lemma rel_generic ps ss dst ds k : forall h, upto (wsop_generic_go W Checked one add mul h ps ss dst ds k) (wsop_generic_go W Wrapping one add mul h ps ss dst ds k).
      Proof. induction k as [|k IH]; intros h; cbn [wsop_generic_go]; rel ltac:(first [simple apply IH|simple apply rel_prod_at]). Qed.
      Lemma rel_out0 h ps ss k : forall s, upto (wsop_out0_go W Checked one add mul h ps ss k s) (wsop_out0_go W Wrapping one add mul h ps ss k s).
      Proof. induction k as [|k IH]; intros s; cbn [wsop_out0_go]; rel ltac:(first [simple apply IH|simple apply rel_prod_at]). Qed.
      Lemma rel_slice_sop h ps ss dst ds n : upto (wsop_slice W Checked zero one add mul h ps ss dst ds n) (wsop_slice W Wrapping zero one add mul h ps ss dst ds n).
      Proof. unfold wsop_slice, wsop_out0, wsop_generic. rel ltac:(first [simple apply rel_generic|simple apply rel_out0]). Qed.
      Lemma rel_fixed h ps ss dst ds n : upto (wsop_fixed W Checked zero one add mul fma h ps ss dst ds n) (wsop_fixed W Wrapping zero one add mul fma h ps ss dst ds n).
      Proof.
        unfold wsop_fixed, wsop_two, wsop_out0, wsop_generic. cbv zeta.
        destruct ps as [|p0 [|p1 [|]]], ss as [|s0 [|s1 [|]]]; try (set (code := _ + _); clearbody code); rel ltac:(first [simple apply rel_generic|simple apply rel_out0]).
      Qed.
      Lemma rel_scale k l : upto (wscale W Checked k l) (wscale W Wrapping k l).
      Proof. apply mapM_upto. intros. apply rel_word. Qed.
      Lemma rel_unspec bases dst inner n0 k : forall g h, upto (wunspec_go W Checked zero one add mul k g h bases dst inner n0) (wunspec_go W Wrapping zero one add mul k g h bases dst inner n0).
      Proof. induction k as [|k IH]; intros g h; cbn [wunspec_go]; rel ltac:(first [simple apply IH|simple apply rel_increment|(simple apply call_upto; simple apply rel_slice_sop)]). Qed.
      Lemma rel_unspecialized h bases st sh dst : upto (wunspecialized W Checked zero one add mul h bases st sh dst) (wunspecialized W Wrapping zero one add mul h bases st sh dst).
      Proof. unfold wunspecialized. rel ltac:(first [simple apply rel_mfrom|simple apply rel_prod|simple apply rel_unspec]). Qed.
      Lemma rel_2labels h bases d0 d1 n0 n1 dst : upto (weinsum_2labels W Checked zero one add mul fma h bases d0 d1 n0 n1 dst) (weinsum_2labels W Wrapping zero one add mul fma h bases d0 d1 n0 n1 dst).
      Proof. unfold weinsum_2labels. rel none. apply for_each_upto. intros i h'. rel ltac:(first [simple apply rel_scale|(simple apply call_upto; simple apply rel_fixed)]). Qed.
      Lemma rel_3labels h bases d0 d1 d2 n0 n1 n2 dst : upto (weinsum_3labels W Checked zero one add mul fma h bases d0 d1 d2 n0 n1 n2 dst) (weinsum_3labels W Wrapping zero one add mul fma h bases d0 d1 d2 n0 n1 n2 dst).
      Proof.
        unfold weinsum_3labels. rel none. apply for_each_upto. intros i h'. apply for_each_upto. intros j h''.
        rel ltac:(first [simple apply rel_scale|simple apply rel_add_lists|(simple apply call_upto; simple apply rel_fixed)]).
      Qed.
      Lemma rel_einsum_run h bases st sh dst : upto (wrun_einsum W Checked zero one add mul fma h bases st sh dst) (wrun_einsum W Wrapping zero one add mul fma h bases st sh dst).
      Proof. unfold wrun_einsum. rel ltac:(first [simple apply rel_unspecialized|simple apply rel_2labels|simple apply rel_3labels]). Qed.
      Lemma rel_einsum h ops subs out : upto (weinsum W Checked zero one add mul fma h ops subs out) (weinsum W Wrapping zero one add mul fma h ops subs out).
      Proof. unfold weinsum. rel ltac:(first [simple apply rel_prepare|simple apply rel_einsum_run|base]). Qed.
      Lemma rel_mm h a b rs dst : upto (wmatrix_matrix W Checked zero one add mul fma h a b rs dst) (wmatrix_matrix W Wrapping zero one add mul fma h a b rs dst).
      Proof. unfold wmatrix_matrix, weinsum_into. rel ltac:(first [simple apply rel_prepare|simple apply rel_einsum_run|simple apply rel_fill|base]). Qed.
      Lemma rel_dot h a b : upto (wdot W Checked zero add mul h a b) (wdot W Wrapping zero add mul h a b).
      Proof. unfold wdot. rel base. Qed.
      Lemma rel_matmul h a b : upto (wmatmul W Checked zero one add mul fma h a b) (wmatmul W Wrapping zero one add mul fma h a b).
      Proof. unfold wmatmul. rel ltac:(first [simple apply rel_dot|simple apply rel_mm|base]). Qed.
      Lemma rel_bmm_go sa sb rst rs n : forall h a b dst, upto (wbmm_go W Checked zero one add mul fma h a b sa sb rst rs dst n) (wbmm_go W Wrapping zero one add mul fma h a b sa sb rst rs dst n).
      Proof. induction n as [|n IH]; intros h a b dst; cbn [wbmm_go]; rel ltac:(first [simple apply IH|simple apply rel_mm]). Qed.
      Lemma rel_bmm h a b : upto (wbmm W Checked zero one add mul fma h a b) (wbmm W Wrapping zero one add mul fma h a b).
      Proof. unfold wbmm. rel ltac:(first [simple apply rel_bmm_go|base]). Qed.
    End Sop.

    Variable zero one : T.
    Variable add mul : T -> T -> T.
    Variable eqb : T -> T -> bool.

    Lemma rel_exec c s : upto (wexec W Checked zero one add mul eqb c s) (wexec W Wrapping zero one add mul eqb c s).
    Proof.
      destruct c; cbn [wexec]; unfold made, stored, only_read, wnew, wbinary, wscalar_op, wunary, wassign, wassign_scalar, wfill, windex, windex_set, wvalue, wflatiter, wequal, wclone, wflatten,
        wreduce, wtrace;
        rel ltac:(first [simple apply rel_k_scalar|simple apply rel_k_binary|simple apply rel_k_unary|simple apply rel_offset|simple apply rel_clone_data|simple apply rel_fill|simple apply rel_k_reduce|simple apply rel_along
                        |simple apply rel_dot|simple apply rel_matmul|simple apply rel_bmm|simple apply rel_einsum|base]).
    Qed.

    Lemma rel_exec_all cs : forall s, upto (wexec_all W Checked zero one add mul eqb cs s) (wexec_all W Wrapping zero one add mul eqb cs s).
    Proof. induction cs as [|c cs IH]; intros s; cbn [wexec_all]; rel ltac:(first [simple apply IH|simple apply rel_exec]). Qed.
  End Ops.
End Release.

(** ** C81 *)

(** For every word size, element type, program and starting state: the build with overflow checks
    ends as the nat model does, or panics. *)
Theorem C81_checked : forall T (zero one : T) add mul eqb W cs s,
  wexec_all W Checked zero one add mul eqb cs s = exec_all zero one add mul eqb cs s \/ wexec_all W Checked zero one add mul eqb cs s = Panic.
Proof. intros T zero one add mul eqb W cs s. destruct (wexec_all_upto W zero one add mul eqb cs s); auto. Qed.
Print Assumptions C81_checked.

(** The release build ends as the build with overflow checks does, where that one does not panic. *)
Theorem C81_release : forall T (zero one : T) add mul eqb W cs s, wexec_all W Checked zero one add mul eqb cs s <> Panic ->
  wexec_all W Wrapping zero one add mul eqb cs s = wexec_all W Checked zero one add mul eqb cs s /\
  wexec_all W Wrapping zero one add mul eqb cs s = exec_all zero one add mul eqb cs s.
Proof.
  intros T zero one add mul eqb W cs s N. destruct (rel_exec_all W zero one add mul eqb cs s) as [E|E]; [contradiction|].
  destruct (C81_checked T zero one add mul eqb W cs s) as [C|C]; [|contradiction]. split; congruence.
Qed.
Print Assumptions C81_release.

(** so C62 holds on machine words with overflow checks: no program in its scope leaves memory *)
Theorem C81_safe : forall T (zero one : T) add mul eqb W cs, Forall (ring_ok zero one add mul) cs -> forall s, sound s -> all_allowed zero one add mul eqb cs s ->
  wexec_all W Checked zero one add mul eqb cs s <> Oob /\
  forall bld s', wexec_all W Checked zero one add mul eqb cs s = Ok s' ->
    wexec_all W bld zero one add mul eqb cs s = Ok s' /\ Forall (fun p => valid (s_heap s') (fst p)) (s_env s').
Proof.
  intros T zero one add mul eqb W cs RG s S A. destruct (C62_programs T zero one add mul eqb cs RG s S A) as [N K].
  destruct (C81_checked T zero one add mul eqb W cs s) as [E|E]; rewrite E.
  - split; [exact N|]. intros bld s' E'. split; [|apply (proj2 (K s' E'))]. destruct bld; [congruence|].
    assert (NP : wexec_all W Checked zero one add mul eqb cs s <> Panic) by congruence. now rewrite (proj2 (C81_release T zero one add mul eqb W cs s NP)).
  - split; [discriminate|]. intros bld s' E'. discriminate.
Qed.
Print Assumptions C81_safe.

(** the program of C62 on words of 64 values ends as the nat model does in both builds; with
    words of 5 values its arrays of 6 elements make the build with checks panic *)
Example C81_ex :
  let run W b := wexec_all W b 0 1 Nat.add Nat.mul Nat.eqb (firstn 9 prog) (mkState [] [] []) in
  (exists s, run 64 Checked = Ok s /\ run 64 Wrapping = Ok s /\ s_heap s = [Some [2; 3; 4; 5; 6; 7]; Some [25; 46; 46; 85]; Some [4; 9; 16; 10; 18; 28]; Some [29; 56]]) /\
  run 5 Checked = Panic.
Proof. split; [eexists|]; vm_compute; repeat split. Qed.

(** ** the release build where the other one panics *)

Definition row (m : nat) : arr := mkArr 0 0 m 1 [m] [0] (mkFlags false true true false false false).

Section Wrap.
  Context {T : Type}.
  Variable zero one : T.
  Variable add mul : T -> T -> T.
  Variable eqb : T -> T -> bool.
  Variable x : T.
  Variable m n : nat.
  Hypothesis M : 2 <= m.
  Hypothesis N : 2 <= n.

  Lemma wprod_wrap : wprod (m * n) Wrapping [m; n] = Ok 0.
  Proof.
    unfold wprod, wprod_from. cbn [fold_left bind word]. rewrite Nat.mul_1_l, (Nat.mod_small m) by nia.
    rewrite Nat.mod_same by nia. reflexivity.
  Qed.
  Lemma wprod_stop : wprod (m * n) Checked [m; n] = Panic.
  Proof.
    unfold wprod, wprod_from. cbn [fold_left bind word]. rewrite Nat.mul_1_l. replace (m <? m * n) with true by (symmetry; apply Nat.ltb_lt; nia). cbn [bind].
    now rewrite Nat.ltb_irrefl.
  Qed.
  Lemma wstrides_wrap : wstrides (m * n) Wrapping 1 [m; n] = Ok ([n; 1], 0).
  Proof.
    cbn [wstrides word bind fst snd]. rewrite !Nat.mul_1_l, (Nat.mod_small n) by nia. replace (n * m) with (m * n) by lia. now rewrite Nat.mod_same by nia.
  Qed.
  Lemma wstrides_stop : wstrides (m * n) Checked 1 [m; n] = Panic.
  Proof.
    cbn [wstrides word bind fst snd]. rewrite !Nat.mul_1_l. replace (n <? m * n) with true by (symmetry; apply Nat.ltb_lt; nia). cbn [bind fst snd].
    replace (n * m <? m * n) with false by (symmetry; apply Nat.ltb_ge; lia). reflexivity.
  Qed.

  Lemma one_made W bld : 1 < W -> wfull W bld [] x [1] = Ok ([Some [x]], fresh_arr 0 1 [1]).
  Proof.
    intros H. unfold wfull, wprod, wprod_from. cbn [fold_left bind wstrides snd fst].
    assert (E : word W bld 1 = Ok 1). { destruct bld; cbn [word]; [now replace (1 <? W) with true by (symmetry; now apply Nat.ltb_lt)|now rewrite Nat.mod_small]. }
    change (1 * 1) with 1. rewrite E. reflexivity.
  Qed.
  Lemma row_made W bld k : 2 <= k -> k < W -> wv_broadcast_to W bld (fresh_arr 0 1 [1]) [k] = Ok (row k).
  Proof.
    intros K L. destruct k as [|[|k]]; try lia.
    unfold wv_broadcast_to, wreshaped_view, wflags, wuniform, wprod, wprod_from. cbn -[word]. rewrite Nat.add_0_r.
    assert (E : word W bld (S (S k)) = Ok (S (S k))). { destruct bld; cbn [word]; [now replace (S (S k) <? W) with true by (symmetry; now apply Nat.ltb_lt)|now rewrite Nat.mod_small]. }
    rewrite E. reflexivity.
  Qed.

  Lemma prep_wrap : wprepare (m * n) Wrapping [row m; row n] [[105]; [106]]%Z [105; 106]%Z = Ok ([[0; 0; 1]; [0; 0; n]], [n; m], [m; n]).
  Proof.
    pose proof wstrides_wrap as ST. assert (Z0 : 0 mod (m * n) = 0) by (apply Nat.mod_0_l; nia).
    remember (m * n) as W eqn:EW. clear EW. destruct m as [|[|m']]; [lia|lia|]. destruct n as [|[|n']]; [lia|lia|].
    cbv -[wstrides find_best_axis_ordering permute_array Nat.modulo]. rewrite ST. cbn [app nth fst]. rewrite Z0.
    reflexivity.
  Qed.
  Lemma prep_stop : wprepare (m * n) Checked [row m; row n] [[105]; [106]]%Z [105; 106]%Z = Panic.
  Proof.
    pose proof wstrides_stop as ST.
    assert (Z0 : word (m * n) Checked 0 = Ok 0) by (cbn [word]; now replace (0 <? m * n) with true by (symmetry; apply Nat.ltb_lt; nia)).
    assert (PM : wprod (m * n) Checked [m] = Ok m).
    { unfold wprod, wprod_from. cbn [fold_left bind word]. rewrite Nat.mul_1_l. now replace (m <? m * n) with true by (symmetry; apply Nat.ltb_lt; nia). }
    assert (PN : wprod (m * n) Checked [n] = Ok n).
    { unfold wprod, wprod_from. cbn [fold_left bind word]. rewrite Nat.mul_1_l. now replace (n <? m * n) with true by (symmetry; apply Nat.ltb_lt; nia). }
    remember (m * n) as W eqn:EW. clear EW. destruct m as [|[|m']]; [lia|lia|]. destruct n as [|[|n']]; [lia|lia|].
    cbv -[wprod word wstrides find_best_axis_ordering permute_array]. rewrite ?PM, ?Z0, ?PN, ?Z0, ?ST. reflexivity.
  Qed.

  (** the outer product of two broadcast vectors: two views of one cell *)
  Definition outer : list (@cmd T) := [CFull x [1]; CView (VBroadcast [m]) 0; CView (VBroadcast [n]) 0; CEinsum [1; 2] [[105]; [106]]%Z [105; 106]%Z].

  Lemma outer_start bld : wexec_all (m * n) bld zero one add mul eqb outer (mkState [] [] []) =
    made (mkState [Some [x]] [(fresh_arr 0 1 [1], false); (row m, true); (row n, true)] [])
      (weinsum (m * n) bld zero one (okadd add) (okadd mul) (okfma add mul) [Some [x]] [row m; row n] [[105]; [106]]%Z [105; 106]%Z).
  Proof.
    unfold outer. cbv beta iota zeta delta [wexec_all wexec made s_heap s_env s_out bind]. rewrite one_made by nia.
    cbv beta iota zeta delta [fst snd app nth_arr nth_error wview_by s_heap s_env s_out bind]. rewrite !row_made by nia.
    cbv beta iota zeta delta [fst snd app nth_arr nth_error wview_by s_heap s_env s_out bind orb marks mapM map].
    match goal with |- context [weinsum ?a ?b ?c ?d ?e ?f ?g ?h ?i ?j ?k] => destruct (weinsum a b c d e f g h i j k) end; reflexivity.
  Qed.

  Lemma outer_wrap : wexec_all (m * n) Wrapping zero one add mul eqb outer (mkState [] [] []) = Oob.
  Proof.
    rewrite outer_start. unfold made, weinsum. rewrite prep_wrap. cbn [bind]. rewrite wprod_wrap. cbn [bind repeat alloc length].
    assert (Z0 : 0 mod (m * n) = 0) by (apply Nat.mod_0_l; nia).
    assert (K : ((n - 1) * 1) mod (m * n) = n - 1) by (rewrite Nat.mul_1_r; apply Nat.mod_small; nia).
    assert (K0 : ((n - 1) * 0) mod (m * n) = 0) by now rewrite Nat.mul_0_r.
    remember (m * n) as W eqn:EW. clear EW. destruct m as [|[|m']]; [lia|lia|]. destruct n as [|[|n']]; [lia|lia|].
    cbn [map wrun_einsum length Nat.eqb orb weinsum_2labels uassert Nat.ltb Nat.leb bind seq for_each wscale mapM word].
    replace (0 * 0) with 0 by reflexivity. rewrite Nat.mul_0_l, Z0. cbn [bind]. unfold call_sop. cbn [length firstn nth padds wsop_fixed].
    unfold wsop_two. cbn [nth Nat.eqb Nat.add].
    assert (G : wsop_generic W Wrapping one (okadd add) (okadd mul) ([Some [x]] ++ [Some []]) [padd (a_ptr (row (S (S m')))) 0; padd (a_ptr (row (S (S n')))) 0] [0; 0] (padd (1, 0) 0) 1 (S (S n')) = Oob).
    { unfold wsop_generic. cbn [Nat.ltb Nat.leb uassert bind wsop_generic_go wprod_at word]. cbn [Nat.sub] in K, K0. rewrite K, K0. reflexivity. }
    rewrite G. reflexivity.
  Qed.

  Lemma outer_stop : wexec_all (m * n) Checked zero one add mul eqb outer (mkState [] [] []) = Panic.
  Proof. rewrite outer_start. unfold made, weinsum. now rewrite prep_stop. Qed.

  (** a column and a row that are views of one cell, their sum, and one row of it *)
  Definition table (f : T -> T -> res T) : list (@cmd T) :=
    [CFull x [1]; CView (VBroadcast [m; 1]) 0; CView (VBroadcast [1; n]) 0; CBinary f 1 2; CView (VSliceAlong 0 (IUsize 0)) 3; CFlatiter 4].
  Definition grid (a b : nat) : arr := mkArr 0 0 (a * b) 1 [a; b] [0; 0] (mkFlags false true true false false false).

  Lemma grid_made W bld a b : (a = 1 \/ b = 1) -> 1 <= a -> 1 <= b -> a < W -> b < W -> wv_broadcast_to W bld (fresh_arr 0 1 [1]) [a; b] = Ok (grid a b).
  Proof.
    intros AB A B LA LB.
    assert (E : forall k, k < W -> word W bld k = Ok k). { intros k K. destruct bld; cbn [word]; [now replace (k <? W) with true by (symmetry; now apply Nat.ltb_lt)|now rewrite Nat.mod_small]. }
    assert (P : wprod W bld [a; b] = Ok (a * b)).
    { unfold wprod, wprod_from. cbn [fold_left bind]. rewrite Nat.mul_1_l, (E a LA). cbn [bind]. apply E. destruct AB; subst; lia. }
    unfold wv_broadcast_to. replace (broadcast_shape (a_shape (fresh_arr 0 1 [1])) [a; b]) with (Ok [a; b]).
    2:{ destruct b as [|[|b]]; [lia| |]; reflexivity. }
    cbn [bind]. replace (broadcast_stride (a_stride (fresh_arr 0 1 [1])) [a; b] (a_shape (fresh_arr 0 1 [1]))) with (Ok [0; 0]).
    2:{ destruct b as [|[|b]]; [lia| |]; reflexivity. }
    cbn [bind]. unfold wreshaped_view, wflags. cbn [wuniform wuniform_go Nat.eqb]. cbn [bind]. rewrite P. reflexivity.
  Qed.

  Lemma table_start W bld f : m < W -> n < W -> wexec_all W bld zero one add mul eqb (table f) (mkState [] [] []) =
    (r <- wbinary W bld f zero [Some [x]] (grid m 1) (grid 1 n) ;;
     v <- wv_slice_along W bld (snd r) 0 (IUsize 0) ;;
     l <- wflatiter W bld (fst r) v ;;
     Ok (mkState (fst r) [(fresh_arr 0 1 [1], false); (grid m 1, true); (grid 1 n, true); (snd r, false); (v, false)] [OVals l]))%res.
  Proof.
    intros LM LN. unfold table. cbv beta iota zeta delta [wexec_all wexec made s_heap s_env s_out bind]. rewrite one_made by lia.
    cbv beta iota zeta delta [fst snd app nth_arr nth_error wview_by s_heap s_env s_out bind]. rewrite !grid_made by lia.
    cbv beta iota zeta delta [fst snd app nth_arr nth_error wview_by s_heap s_env s_out bind orb marks mapM map only_read].
    destruct (wbinary W bld f zero [Some [x]] (grid m 1) (grid 1 n)) as [[h r]| |]; try reflexivity. cbv beta iota.
    destruct (wv_slice_along W bld r 0 (IUsize 0)) as [v| |]; try reflexivity. cbv beta iota.
    destruct (wflatiter W bld h v); reflexivity.
  Qed.

  Lemma grids : broadcast_shapes [m; 1] [1; n] = Ok [m; n] /\ broadcast_stride [0; 0] [m; n] [m; 1] = Ok [0; 0] /\ broadcast_stride [0; 0] [m; n] [1; n] = Ok [0; 0].
  Proof.
    destruct m as [|[|m']]; [lia|lia|]. destruct n as [|[|n']]; [lia|lia|]. repeat split; cbn; rewrite ?Nat.eqb_refl; reflexivity.
  Qed.

  Lemma table_wrap f : wexec_all (m * n) Wrapping zero one add mul eqb (table f) (mkState [] [] []) = Oob.
  Proof.
    rewrite table_start by nia. destruct grids as (G1 & G2 & G3).
    assert (Z0 : 0 mod (m * n) = 0) by (apply Nat.mod_0_l; nia).
    assert (KB : wk_binary (m * n) Wrapping f ([Some [x]] ++ [Some []]) (0, 0) [0; 0] (0, 0) [0; 0] (1, 0) [m; n] = Ok ([Some [x]] ++ [Some []])).
    { unfold wk_binary. cbn [length Nat.eqb andb wcollapse wcollapse_go word bind]. rewrite Nat.mul_0_r, Z0. cbn [Nat.eqb orb]. rewrite Nat.mod_same by nia. cbn [wcollapse_go bind]. reflexivity. }
    unfold wbinary. cbn [grid a_shape a_stride]. rewrite G1. cbn [bind]. rewrite G2. cbn [bind]. rewrite G3. cbn [bind]. rewrite wprod_wrap. cbn [bind repeat alloc length].
    change (a_ptr (grid m 1)) with (0, 0). change (a_ptr (grid 1 n)) with (0, 0). unfold heap in *. rewrite KB. cbn [bind]. unfold wfresh. rewrite wstrides_wrap. cbn [bind fst snd].
    unfold wv_slice_along. cbn [a_shape a_stride a_blk a_off a_fl length].
    change (as_absolute 0 2) with (Ok 0). cbn [bind index_collapses index_first].
    change (vget [m; n] 0) with (Ok m). change (vget [n; 1] 0) with (Ok n). cbn [bind]. change (vremove [m; n] 0) with (Ok [n]). change (vremove [n; 1] 0) with (Ok [1]). cbn [bind].
    cbn [word]. rewrite Nat.mul_0_r, Z0. cbn [bind].
    destruct (wstrided_len (m * n) Wrapping [n] [1]) as [len| |] eqn:E1; [cbn [bind]| |].
    2,3: unfold wstrided_len in E1; cbn [wlen_from wsub word bind] in E1; discriminate.
    unfold wflags. cbn [wuniform wuniform_go bind]. unfold wflatiter. cbn [a_shape a_stride]. rewrite (wfig_list_ok _ _ n).
    2:{ split; [reflexivity| | | | |]; [constructor; [lia|constructor]| | |repeat constructor; nia|cbn; nia].
        - intros idx IR. inversion IR; subst. inversion H3; subst. cbn. unfold dot. cbn. lia.
        - nia. }
    rewrite fig_list_ok' by (cbn; unfold MAX_DIMS; lia). destruct n as [|n']; [lia|]. reflexivity.
  Qed.

  Lemma table_stop f : wexec_all (m * n) Checked zero one add mul eqb (table f) (mkState [] [] []) = Panic.
  Proof.
    rewrite table_start by nia. destruct grids as (G1 & G2 & G3). unfold wbinary. cbn [grid a_shape a_stride]. rewrite G1. cbn [bind]. rewrite G2. cbn [bind]. rewrite G3. cbn [bind]. now rewrite wprod_stop.
  Qed.
  Lemma row_nat k : 2 <= k -> nd_broadcast_to (fresh_arr 0 1 [1]) [k] = Ok (row k).
  Proof. intros K. destruct k as [|[|k]]; [lia|lia|]. unfold row. cbn. rewrite ?Nat.add_0_r, ?Nat.mul_1_r. reflexivity. Qed.
  Lemma grid_nat a b : 1 <= a -> 1 <= b -> nd_broadcast_to (fresh_arr 0 1 [1]) [a; b] = Ok (grid a b).
  Proof. intros A B. destruct b as [|[|b]]; [lia| |]; unfold grid; cbn; rewrite ?Nat.add_0_r, ?Nat.mul_1_r; reflexivity. Qed.

  Lemma outer_allowed : all_allowed zero one add mul eqb outer (mkState [] [] []).
  Proof.
    unfold outer. cbn [all_allowed]. split; [exact I|]. intros s1 E1. cbn in E1. injection E1 as <-.
    split; [intros a bc E; injection E as <- <-; exact I|]. intros s2 E2. cbn [exec nth_arr s_env s_heap nth_error bind view_by fst] in E2. rewrite row_nat in E2 by exact M. cbn in E2. injection E2 as <-.
    split; [intros a bc E; injection E as <- <-; exact I|]. intros s3 E3. cbn [exec nth_arr s_env s_heap nth_error bind view_by fst] in E3. rewrite row_nat in E3 by exact N. cbn in E3. injection E3 as <-.
    split; [|easy]. cbn [allowed]. split; [|split; [|split; [|split]]].
    - intros k K a bc E. destruct K as [<-|[<-|[]]]; injection E as <- <-; split; cbn; unfold MAX_DIMS; lia.
    - cbn. lia.
    - repeat constructor; cbn; lia.
    - repeat constructor; cbn; lia.
    - exists [], (fun l => if (l =? 105)%Z then m else n). split; [|split; [split|split; [|split]]].
      + cbn [app]. constructor; [intros [H|[]]; discriminate|constructor; [easy|constructor]].
      + cbn [app]. intros [<-|[<-|[]]]; [exists [105%Z]|exists [106%Z]]; cbn; auto.
      + cbn [app]. intros (s & [<-|[<-|[]]] & [<-|[]]); cbn; auto.
      + discriminate.
      + cbn. lia.
      + constructor; [|constructor; [|constructor]]; intros a bc E; injection E as <- <-; reflexivity.
  Qed.

  Lemma table_allowed f : (forall a b, f a b <> Oob) -> all_allowed zero one add mul eqb (table f) (mkState [] [] []).
  Proof.
    intros NF. unfold table. cbn [all_allowed]. split; [exact I|]. intros s1 E1. cbn in E1. injection E1 as <-.
    split; [intros a bc E; injection E as <- <-; exact I|]. intros s2 E2. cbn [exec nth_arr s_env s_heap nth_error bind view_by fst] in E2. rewrite grid_nat in E2 by lia. cbn [bind snd marks orb app s_out] in E2. injection E2 as <-.
    split; [intros a bc E; injection E as <- <-; exact I|]. intros s3 E3. cbn [exec nth_arr s_env s_heap nth_error bind view_by fst] in E3. rewrite grid_nat in E3 by lia. cbn [bind snd marks orb app s_out] in E3. injection E3 as <-.
    split; [split; [|split; [|exact NF]]; intros a bc E; injection E as <- <-; split; cbn; unfold MAX_DIMS; lia|]. intros s4 E4.
    cbn [exec nth_arr s_env s_heap nth_error bind fst made] in E4. unfold nd_binary in E4. cbn [grid a_shape a_stride] in E4. destruct grids as (G1 & G2 & G3). rewrite G1 in E4. cbn [bind] in E4. rewrite G2 in E4. cbn [bind] in E4. rewrite G3 in E4. cbn [bind alloc] in E4.
    match type of E4 with context [k_binary ?a ?b ?c ?d ?e ?g ?h ?i] => destruct (k_binary a b c d e g h i) as [h2| |] end; cbn [bind fst snd] in E4; try discriminate. injection E4 as <-.
    split.
    { intros a bc E. cbn [s_env app nth_error snd] in E. injection E as <- <-. cbn [view_allowed fresh_arr a_shape length]. intros k K. injection K as <-. cbn. lia. }
    intros s5 E5. split; [|easy]. cbn [exec nth_arr s_env s_heap s_out nth_error bind fst snd app view_by fresh_arr] in E5. unfold nd_slice_along in E5. cbn [a_shape a_stride length] in E5.
    change (as_absolute 0 2) with (Ok 0) in E5. cbn -[prod] in E5. destruct (strided_len [n] [1]) as [len| |]; cbn [bind] in E5; try discriminate. injection E5 as <-. intros a bc E. injection E as <- <-. split; cbn; unfold MAX_DIMS; lia.
  Qed.
End Wrap.

(** The build with overflow checks panics; the release build goes on with a size that wrapped.
    The outer product of two broadcast vectors of [m] and [n] elements, both views of one cell,
    is given no cells and writes to the first. *)
Theorem C81_release_outer_product : forall T (zero one : T) add mul eqb x m n, 2 <= m -> 2 <= n ->
  let start := mkState [] [] [] in
  all_allowed zero one add mul eqb (outer x m n) start /\
  wexec_all (m * n) Checked zero one add mul eqb (outer x m n) start = Panic /\
  wexec_all (m * n) Wrapping zero one add mul eqb (outer x m n) start = Oob.
Proof. intros T zero one add mul eqb x m n M N start. split; [now apply outer_allowed|]. split; [now apply outer_stop|now apply outer_wrap]. Qed.
Print Assumptions C81_release_outer_product.

(** The sum of a column and a row, or any other operation on them, succeeds without computing
    anything; reading a row of the result leaves memory. *)
Theorem C81_release_table : forall T (zero one : T) add mul eqb f x m n, 2 <= m -> 2 <= n -> (forall a b, f a b <> Oob) ->
  let start := mkState [] [] [] in
  all_allowed zero one add mul eqb (table x m n f) start /\
  wexec_all (m * n) Checked zero one add mul eqb (table x m n f) start = Panic /\
  wexec_all (m * n) Wrapping zero one add mul eqb (table x m n f) start = Oob.
Proof. intros T zero one add mul eqb f x m n M N NF start. split; [now apply table_allowed|]. split; [now apply table_stop|now apply table_wrap]. Qed.
Print Assumptions C81_release_table.
