(** BuildsGradFacts.v: the engine of a build with features (BuildsGrad.v) changes memory exactly
    like the engine without (Autograd.v). *)
From Coq Require Import List Arith Lia Bool ZArith Permutation.
From Verif Require Import Base Spec Layout SpecFacts LayoutFacts Views ViewsFacts ViewsFacts2 ViewsFacts3 ViewsFacts4
  Kernels Access HeapFacts KernelFacts OpFacts AccessFacts Chain ChainFacts Reduce ReduceFacts Einsum EinsumFacts2 EinsumParse
  Simd SimdOps SimdSop Vendor VendorFacts Vdsp VdspFacts
  PropsViews PropsOps PropsReduce PropsEinsum SpecGrad Autograd GradMath GradFacts GradFacts2 GradFacts3 GradFacts4 GradFacts5 Builds BuildsFacts BuildsGrad.
Import ListNotations.
Open Scope res_scope.

(** the copies in BuildsGrad.v are the code of Autograd.v *)
Lemma kbw_portable T (N : num T) : kbw N (plain_kern N) = bw N.
Proof. reflexivity. Qed.
Lemma krun_portable T (N : num T) : krun N (plain_kern N) = Autograd.run N.
Proof. reflexivity. Qed.

(** ** which blocks there are, and how long *)
Section Skel.
  Context {T : Type}.
  Implicit Types h : heap T.
  Definition skel h : list (option nat) := map (option_map (@length T)) h.

  Lemma skel_eq h1 h2 : skel h1 = skel h2 -> (forall b o, load h1 b o = load h2 b o) -> h1 = h2.
  Proof.
    revert h2. induction h1 as [|x h1 IH]; intros [|y h2] SK L; cbn [skel map] in SK; try discriminate; [reflexivity|].
    injection SK as Sx SK. f_equal.
    - destruct x as [l|], y as [m|]; cbn [option_map] in Sx; try discriminate; [|reflexivity]. injection Sx as Sx. f_equal.
      apply nth_error_ext. intros o. specialize (L 0 o). unfold load in L. cbn [nth_error] in L.
      destruct (nth_error l o), (nth_error m o); congruence.
    - apply IH; [exact SK|]. intros b o. exact (L (S b) o).
  Qed.
  Lemma upd_length {A} (l : list A) : forall i v l', upd l i v = Some l' -> length l' = length l.
  Proof.
    induction l as [|x l IH]; intros [|i] v l' E; cbn [upd] in E; try discriminate; [injection E as <-; reflexivity|].
    destruct (upd l i v) eqn:Q; [|discriminate]. injection E as <-. cbn [length]. now rewrite (IH _ _ _ Q).
  Qed.
  Lemma skel_upd h : forall b l l' h', nth_error h b = Some (Some l) -> length l' = length l -> upd h b (Some l') = Some h' -> skel h' = skel h.
  Proof.
    induction h as [|x h IH]; intros [|b] l l' h' N L E; cbn [upd nth_error] in *; try discriminate.
    - injection N as ->. injection E as <-. cbn [skel map option_map]. now rewrite L.
    - destruct (upd h b (Some l')) eqn:Q; [|discriminate]. injection E as <-. cbn [skel map]. f_equal. exact (IH _ _ _ _ N L Q).
  Qed.

  (** the outcome, if any, has the blocks of [h] *)
  Definition skp (r : res (heap T)) h : Prop := forall h', r = Ok h' -> skel h' = skel h.
  Lemma skp_ok h : skp (Ok h) h. Proof. intros h' [= <-]. reflexivity. Qed.
  Lemma skp_panic h : skp Panic h. Proof. discriminate. Qed.
  Lemma skp_oob h : skp Oob h. Proof. discriminate. Qed.
  Lemma skp_st h p v : skp (st h p v) h.
  Proof.
    intros h' E. unfold st, store in E. destruct (nth_error h (fst p)) as [[l|]|] eqn:N; try discriminate. destruct (upd l (snd p) v) as [l'|] eqn:U; [|discriminate].
    destruct (upd h (fst p) (Some l')) as [h1|] eqn:U2; [|discriminate]. injection E as <-. exact (skel_upd _ _ _ _ _ N (upd_length _ _ _ _ U) U2).
  Qed.
  Lemma skp_bind r k h : skp r h -> (forall h1, skp (k h1) h1) -> skp (h1 <- r ;; k h1) h.
  Proof. intros R H h' E. destruct r as [h1| |]; try discriminate. cbn [bind] in E. rewrite (H h1 h' E). now apply R. Qed.
  Lemma skp_val {A} (r : res A) k h : (forall x, skp (k x) h) -> skp (x <- r ;; k x) h.
  Proof. intros H. destruct r as [x| |]; cbn [bind]; [apply H|discriminate|discriminate]. Qed.
  Lemma skp_each {A} (body : A -> heap T -> res (heap T)) : (forall x h, skp (body x h) h) -> forall l h, skp (for_each body l h) h.
  Proof. intros H. induction l as [|x l IH]; intros h; cbn [for_each]; [apply skp_ok|]. apply skp_bind; [apply H|auto]. Qed.

  Variable zero one : T.
  Variable add mul : T -> T -> res T.
  Variable fma : T -> T -> T -> res T.
  Ltac sk := repeat first [apply skp_ok|apply skp_panic|apply skp_oob|apply skp_st|(apply skp_bind; [|intros ?])|(apply skp_val; intros ?)].
  Lemma skp_add_to h p v : skp (add_to add h p v) h.
  Proof. unfold add_to. sk. Qed.
  Lemma skp_generic ps ss dst ds k : forall h, skp (sop_generic_go one add mul h ps ss dst ds k) h.
  Proof. induction k as [|k IH]; intros h; cbn [sop_generic_go]; [sk|]. apply skp_val; intros v. apply skp_bind; [apply skp_add_to|auto]. Qed.
  Lemma skp_out0 h ps ss dst n : skp (sop_out0 zero one add mul h ps ss dst n) h.
  Proof. unfold sop_out0. apply skp_val; intros _. apply skp_val; intros s. apply skp_add_to. Qed.
  Lemma skp_muladd h p q dst n : skp (sop_muladd fma h p q dst n) h.
  Proof.
    unfold sop_muladd. apply skp_val; intros _. apply skp_val; intros s. revert h q dst. induction n as [|n IH]; intros h q dst; cbn [muladd_go]; [sk|].
    do 3 (apply skp_val; intros ?). apply skp_bind; [apply skp_st|auto].
  Qed.
  Lemma skp_scaled h p q dst n : skp (sop_scaled zero add fma h p q dst n) h.
  Proof. unfold sop_scaled. do 5 (apply skp_val; intros ?). apply skp_st. Qed.
  Lemma skp_111 h p q dst n : skp (sop_111 add mul h p q dst n) h.
  Proof.
    unfold sop_111. apply skp_val; intros _. revert h p q dst. induction n as [|n IH]; intros h p q dst; cbn [sop_111_go]; [sk|].
    do 3 (apply skp_val; intros ?). apply skp_bind; [apply skp_add_to|auto].
  Qed.
  Lemma skp_dot h p s q t dst n : skp (strided_dot zero add mul h p s q t dst n) h.
  Proof. unfold strided_dot. apply skp_val; intros ?. apply skp_add_to. Qed.
  Lemma skp_slice h ps ss dst ds n : skp (sop_slice zero one add mul h ps ss dst ds n) h.
  Proof. unfold sop_slice. destruct (ds =? 0); [apply skp_out0|]. unfold sop_generic. apply skp_val; intros _. apply skp_generic. Qed.
  Lemma skp_two h p s q t dst ds n : skp (sop_two zero one add mul fma h p s q t dst ds n) h.
  Proof.
    unfold sop_two. match goal with |- context [match ?c with 0 => _ | S _ => _ end] => generalize c end. intros c.
    pose proof (skp_slice h [p; q] [s; t] dst ds n) as D. unfold sop_slice in D.
    do 8 (destruct c as [|c]; [first [exact D|apply skp_scaled|apply skp_muladd|apply skp_111|(apply skp_val; intros _; apply skp_dot)]|]). exact D.
  Qed.
  Lemma skp_fixed h ps ss dst ds n : skp (sop_fixed zero one add mul fma h ps ss dst ds n) h.
  Proof.
    pose proof (skp_slice h ps ss dst ds n) as D. unfold sop_slice in D. unfold sop_fixed.
    destruct ps as [|p [|q [|? ?]]]; try exact D; destruct ss as [|s [|t [|? ?]]]; try exact D. apply skp_two.
  Qed.
  Lemma skp_run h bases strides sh dst : skp (run_einsum zero one add mul fma h bases strides sh dst) h.
  Proof.
    assert (U : skp (unspecialized zero one add mul h bases strides sh dst) h).
    { unfold unspecialized. destruct strides as [|inner strides]; [sk|]. destruct sh as [|n0 sh]; [sk|]. apply skp_val; intros g. generalize (prod sh). intros k. revert g h.
      induction k as [|k IH]; intros g h; cbn [unspec_go]; [sk|]. apply skp_bind; [apply skp_slice|]. intros h1. apply skp_val; auto. }
    unfold run_einsum. destruct ((length bases =? 1) || (length bases =? 2)); [|exact U].
    destruct strides as [|d0 [|d1 [|d2 [|? ?]]]]; try exact U; destruct sh as [|n0 [|n1 [|n2 [|? ?]]]]; try exact U.
    - unfold einsum_2labels. do 2 (apply skp_val; intros _). apply skp_each. intros x g. apply skp_fixed.
    - unfold einsum_3labels. do 3 (apply skp_val; intros _). apply skp_each. intros x g. apply skp_each. intros y g'. apply skp_fixed.
  Qed.
  Lemma skp_fill sh : forall st n h p v, skp (k_fill h p sh st n v) h.
  Proof.
    assert (U : forall s v n h p, skp (fill_uniform h p n s v) h).
    { intros s v. induction n as [|n IH]; intros h p; cbn [fill_uniform]; [sk|]. apply skp_bind; [apply skp_st|auto]. }
    induction sh as [|d sh IH]; intros st n h p v; cbn [k_fill]; destruct (has_uniform_stride _ _) as [s|]; try (destruct (s =? 1); apply U); [sk|].
    destruct st as [|s st]; [sk|]. revert h p. induction d as [|d IHd]; intros h p; cbn [loop_ptr]; [sk|]. apply skp_bind; [|auto]. do 2 (apply skp_val; intros ?). apply IH.
  Qed.
  Lemma skp_into h ops subs out rst dst : skp (einsum_into_ptr zero one add mul fma h ops subs out rst dst) h.
  Proof. unfold einsum_into_ptr. apply skp_val; intros [[? ?] ?]. apply skp_val; intros _. apply skp_bind; [apply skp_fill|]. intros h1. apply skp_run. Qed.
  Lemma skp_matvec_go rs s v t cols rows : forall h row dst, skp (matvec_go zero add mul h row rs s v t dst cols rows) h.
  Proof. induction rows as [|r IH]; intros h row dst; cbn [matvec_go]; [sk|]. apply skp_bind; [apply skp_dot|auto]. Qed.
  Lemma skp_bmm_go sa sb rst rs n : forall h a b dst, skp (bmm_go zero one add mul fma h a b sa sb rst rs dst n) h.
  Proof. induction n as [|n IH]; intros h a b dst; cbn [bmm_go]; [sk|]. apply skp_bind; [apply skp_into|auto]. Qed.

  (** a result in a new block *)
  Definition skn (r : res (heap T * arr)) h : Prop := forall h' a, r = Ok (h', a) -> exists n, skel h' = skel h ++ [n].
  Lemma skn_panic h : skn Panic h. Proof. discriminate. Qed.
  Lemma skn_val {A} (r : res A) k h : (forall x, skn (k x) h) -> skn (x <- r ;; k x) h.
  Proof. intros H. destruct r as [x| |]; cbn [bind]; [apply H|discriminate|discriminate]. Qed.
  Lemma skn_alloc h l k (f : arr) : (forall h1, h1 = h ++ [Some l] -> skp (k h1) h1) -> skn (h2 <- k (h ++ [Some l]) ;; Ok (h2, f)) h.
  Proof.
    intros H h' a E. specialize (H _ eq_refl). destruct (k (h ++ [Some l])) as [h2| |]; try discriminate. injection E as <- <-. rewrite (H _ eq_refl).
    unfold skel. rewrite map_app. eexists. reflexivity.
  Qed.
  Lemma skn_dot h a b : skn (nd_dot zero add mul h a b) h.
  Proof.
    unfold nd_dot. destruct (a_shape a) as [|n [|? ?]]; try apply skn_panic. destruct (a_shape b) as [|m [|? ?]]; try apply skn_panic.
    destruct (a_stride a) as [|s [|? ?]]; try apply skn_panic. destruct (a_stride b) as [|t [|? ?]]; try apply skn_panic. apply skn_val; intros _.
    unfold nd_scalar, nd_full. destruct (guard _); try discriminate. cbn [bind from_buffer alloc]. apply (skn_alloc h _ (fun h1 => strided_dot zero add mul h1 _ s _ t _ n)). intros. apply skp_dot.
  Qed.
  Lemma skn_matmul h a b : skn (nd_matmul zero one add mul fma h a b) h.
  Proof.
    pose proof (skn_dot h a b) as D. unfold nd_matmul. destruct (a_shape a) as [|n [|k [|? ?]]]; try apply skn_panic.
    - destruct (a_shape b) as [|m [|? ?]]; try apply skn_panic. exact D.
    - destruct (a_shape b) as [|m [|p [|? ?]]]; try apply skn_panic; apply skn_val; intros _.
      + destruct (a_stride a) as [|rs [|s [|? ?]]]; try apply skn_panic. destruct (a_stride b) as [|t [|? ?]]; try apply skn_panic. cbn [alloc].
        apply (skn_alloc h _ (fun h1 => matvec_go zero add mul h1 _ rs s _ t _ k n)). intros. apply skp_matvec_go.
      + unfold nd_full. destruct (guard _); try discriminate. cbn [bind from_buffer alloc].
        apply (skn_alloc h _ (fun h1 => matrix_matrix zero one add mul fma h1 a b _ _)). intros. apply skp_into.
  Qed.
  Lemma skn_bmm h a b : skn (nd_bmm zero one add mul fma h a b) h.
  Proof.
    unfold nd_bmm. destruct (a_shape a) as [|q [|n [|k [|? ?]]]]; try apply skn_panic. destruct (a_shape b) as [|q' [|k' [|p [|? ?]]]]; try apply skn_panic.
    apply skn_val; intros _. unfold nd_full. destruct (guard _); try discriminate. cbn [bind from_buffer alloc]. do 5 (apply skn_val; intros ?).
    apply (skn_alloc h _ (fun h1 => bmm_go zero one add mul fma h1 _ _ _ _ _ _ _ q)). intros. apply skp_bmm_go.
  Qed.
  Lemma skn_einsum h ops subs out : skn (nd_einsum zero one add mul fma h ops subs out) h.
  Proof.
    unfold nd_einsum. apply skn_val; intros [[? ?] ?]. cbn [alloc]. apply (skn_alloc h _ (fun h1 => run_einsum zero one add mul fma h1 _ _ _ _)). intros. apply skp_run.
  Qed.

  Variable bad : heap T -> res (heap T).
  Hypothesis tame : forall h h', bad h = Ok h' -> h' = h.
  Lemma skp_bad h : skp (bad h) h. Proof. intros h' E. apply tame in E. now subst. Qed.
  Lemma skp_gemv h m n a lda x incx y : skp (cblas_gemv zero one add mul bad h m n a lda x incx y) h.
  Proof. unfold cblas_gemv. destruct (_ && _); [|apply skp_bad]. destruct (_ <? _)%Z; [sk|]. apply skp_each. intros i h1. do 2 (apply skp_val; intros ?). apply skp_st. Qed.
  Lemma skp_gemm h m n k a lda b ldb c ldc : skp (cblas_gemm zero one add mul bad h m n k a lda b ldb c ldc) h.
  Proof. unfold cblas_gemm. destruct (_ && _); [|apply skp_bad]. apply skp_each. intros i h1. apply skp_each. intros j h2. do 2 (apply skp_val; intros ?). apply skp_st. Qed.
End Skel.

Section SkelBuild.
  Context {T : Type}.
  Implicit Types h : heap T.
  Variable zero one : T.
  Variable op : arith -> T -> T -> T.
  Variable B : @build T.
  Local Notation addM := (okadd (op AAdd)).
  Local Notation mulM := (okadd (op AMul)).
  (** the library does not write when it complains about a parameter *)
  Definition tame : Prop := forall bad h h', blas B = Some bad -> bad h = Ok h' -> h' = h.
  Hypothesis TM : tame.

  Lemma skp_vstore vs : forall h p, skp (vstore h p vs) h.
  Proof. induction vs as [|v vs IH]; intros h p; cbn [vstore]; [apply skp_ok|]. apply skp_bind; [apply skp_st|auto]. Qed.
  Lemma skp_sma L f fuel : forall h c src dst n, skp (sma_four L f fuel h c src dst n) h.
  Proof.
    assert (TL : forall c n h src dst, skp (sma_tail f h c src dst n) h).
    { intros c. induction n as [|n IH]; intros h src dst; cbn [sma_tail]; [apply skp_ok|]. do 2 (apply skp_val; intros ?). apply skp_bind; [apply skp_st|auto]. }
    assert (ON : forall j h c src dst n, skp (sma_one L f j h c src dst n) h).
    { induction j as [|k IH]; intros h c src dst n; cbn [sma_one]; (destruct (L <=? n); [|apply TL]); [apply skp_panic|]. do 2 (apply skp_val; intros ?). apply skp_bind; [apply skp_vstore|auto]. }
    induction fuel as [|k IH]; intros h c src dst n; cbn [sma_four]; (destruct (4 * L <=? n); [|apply ON]); [apply skp_panic|]. do 8 (apply skp_val; intros ?). cbv zeta.
    do 4 (apply skp_bind; [apply skp_vstore|intros ?]). auto.
  Qed.
  Lemma skp_bk_dot h p q dst n : skp (bk_dot zero op B h p q dst n) h.
  Proof.
    unfold bk_dot. destruct (vdsp B); [unfold v_dot; do 2 (apply skp_val; intros ?); apply skp_add_to|]. destruct (neon B); [unfold sdot; do 2 (apply skp_val; intros ?); apply skp_st|].
    destruct (blas B); [unfold b_strided_dot; do 3 (apply skp_val; intros ?); apply skp_st|apply skp_dot].
  Qed.
  Lemma skp_bk_sdot h p s q t dst n : skp (bk_sdot zero op B h p s q t dst n) h.
  Proof.
    assert (X : skp (b_strided_dot zero addM mulM h p s q t dst n) h) by (unfold b_strided_dot; do 3 (apply skp_val; intros ?); apply skp_st).
    unfold bk_sdot. destruct (vdsp B); [unfold v_dot; do 2 (apply skp_val; intros ?); apply skp_add_to|].
    destruct (neon B), (blas B); try apply skp_dot; try exact X. destruct (double B); [exact X|apply skp_dot].
  Qed.
  Lemma skp_bk_fixed h ps ss dst ds n : skp (bk_sop_fixed zero one op B h ps ss dst ds n) h.
  Proof.
    pose proof (skp_slice zero one addM mulM h ps ss dst ds n) as D. unfold sop_slice in D. unfold bk_sop_fixed.
    destruct ps as [|p [|q [|? ?]]]; try exact D; destruct ss as [|s [|t [|? ?]]]; try exact D. unfold bk_sop_two.
    match goal with |- context [match ?c with 0 => _ | S _ => _ end] => generalize c end. intros c.
    assert (M : forall p q, skp (bk_muladd op B h p q dst n) h).
    { intros p' q'. unfold bk_muladd. destruct (neon B); [|apply skp_muladd]. unfold ssop_muladd. do 2 (apply skp_val; intros ?). apply skp_sma. }
    assert (C : forall p q, skp (bk_scaled zero op B h p q dst n) h).
    { intros p' q'. unfold bk_scaled. destruct (neon B); [|apply skp_scaled]. unfold ssop_scaled. do 4 (apply skp_val; intros ?). apply skp_st. }
    do 8 (destruct c as [|c]; [first [exact D|apply C|apply M|apply skp_111|(apply skp_val; intros _; apply skp_bk_dot)]|]). exact D.
  Qed.
  Lemma skp_bk_run h bases strides sh dst : skp (bk_run_einsum zero one op B h bases strides sh dst) h.
  Proof.
    assert (U : skp (unspecialized zero one addM mulM h bases strides sh dst) h).
    { unfold unspecialized. destruct strides as [|inner strides]; [apply skp_panic|]. destruct sh as [|n0 sh]; [apply skp_panic|]. apply skp_val; intros g. generalize (prod sh). intros k. revert g h.
      induction k as [|k IH]; intros g h; cbn [unspec_go]; [apply skp_ok|]. apply skp_bind; [apply skp_slice|]. intros h1. apply skp_val; auto. }
    unfold bk_run_einsum. destruct ((length bases =? 1) || (length bases =? 2)); [|exact U].
    destruct strides as [|d0 [|d1 [|d2 [|? ?]]]]; try exact U; destruct sh as [|n0 [|n1 [|n2 [|? ?]]]]; try exact U.
    - unfold bk_einsum_2labels. do 2 (apply skp_val; intros _). apply skp_each. intros x g. apply skp_bk_fixed.
    - unfold bk_einsum_3labels. do 3 (apply skp_val; intros _). apply skp_each. intros x g. apply skp_each. intros y g'. apply skp_bk_fixed.
  Qed.
  Lemma skp_bk_mm h a b rst dst : skp (bk_matrix_matrix zero one op B h a b rst dst) h.
  Proof.
    assert (E : skp (bk_einsum_into zero one op B h [a; b] matmul_subs matmul_out rst dst) h).
    { unfold bk_einsum_into. apply skp_val; intros [[? ?] ?]. apply skp_val; intros _. apply skp_bind; [apply skp_fill|]. intros h1. apply skp_bk_run. }
    unfold bk_matrix_matrix. destruct (blas B) as [bad|] eqn:EB; [|exact E]. do 2 (apply skp_val; intros ?). destruct (_ || _); [exact E|]. do 5 (apply skp_val; intros ?).
    apply skp_gemm. intros h1 h2 Q. eapply TM; eauto.
  Qed.
  Lemma skn_bk_matmul h a b : skn (bk_matmul zero one op B h a b) h.
  Proof.
    unfold bk_matmul. destruct (a_shape a) as [|n [|k [|? ?]]] eqn:Sa; try apply skn_panic.
    - destruct (a_shape b) as [|m [|? ?]] eqn:Sb; try apply skn_panic. unfold bk_nd_dot. rewrite Sa, Sb.
      destruct (a_stride a) as [|s [|? ?]]; try apply skn_panic. destruct (a_stride b) as [|t [|? ?]]; try apply skn_panic. apply skn_val; intros _.
      unfold nd_scalar, nd_full. destruct (guard _); try discriminate. cbn [bind from_buffer alloc]. apply (skn_alloc h _ (fun h1 => bk_sdot zero op B h1 _ s _ t _ n)). intros. apply skp_bk_sdot.
    - destruct (a_shape b) as [|m [|p [|? ?]]] eqn:Sb; try apply skn_panic; apply skn_val; intros _.
      + assert (R : skn (match a_stride a, a_stride b with
          | [rs; s], [t] => let '(h1, blk) := alloc h (repeat zero n) in
              h2 <- bk_matvec_go zero op B h1 (a_ptr a) rs s (a_ptr b) t (blk, 0) k n ;; Ok (h2, fresh_arr blk n [n])
          | _, _ => Panic end) h).
        { destruct (a_stride a) as [|rs [|s [|? ?]]]; try apply skn_panic. destruct (a_stride b) as [|t [|? ?]]; try apply skn_panic. cbn [alloc].
          apply (skn_alloc h _ (fun h1 => bk_matvec_go zero op B h1 _ rs s _ t _ k n)). intros h1 _. generalize (a_ptr a) (length h, 0). clear. revert h1.
          induction n as [|n IH]; intros h1 p q; cbn [bk_matvec_go]; [apply skp_ok|]. apply skp_bind; [apply skp_bk_sdot|auto]. }
        unfold bk_matrix_vector. rewrite Sa. cbv zeta. destruct (blas B) as [bad|] eqn:EB; [|exact R]. destruct (neon B) eqn:EN; [exact R|].
        apply skn_val; intros s1. destruct (negb _).
        * unfold bk_einsum. apply skn_val; intros [[? ?] ?]. cbn [alloc]. apply (skn_alloc h _ (fun h1 => bk_run_einsum zero one op B h1 _ _ _ _)). intros. apply skp_bk_run.
        * do 4 (apply skn_val; intros ?). cbn [alloc]. apply (skn_alloc h _ (fun h1 => cblas_gemv zero one addM mulM bad h1 _ _ _ _ _ _ _)). intros. apply skp_gemv. intros h1' h2' Q. eapply TM; eauto.
      + unfold nd_full. destruct (guard _); try discriminate. cbn [bind from_buffer alloc].
        apply (skn_alloc h _ (fun h1 => bk_matrix_matrix zero one op B h1 a b _ _)). intros. apply skp_bk_mm.
  Qed.
  Lemma skn_bk_bmm h a b : skn (bk_bmm zero one op B h a b) h.
  Proof.
    unfold bk_bmm. destruct (a_shape a) as [|q [|n [|k [|? ?]]]]; try apply skn_panic. destruct (a_shape b) as [|q' [|k' [|p [|? ?]]]]; try apply skn_panic.
    apply skn_val; intros _. unfold nd_full. destruct (guard _); try discriminate. cbn [bind from_buffer alloc]. do 5 (apply skn_val; intros ?).
    apply (skn_alloc h _ (fun h1 => bk_bmm_go zero one op B h1 _ _ _ _ _ _ _ q)). intros h1 _.
    match goal with |- skp (bk_bmm_go _ _ _ _ _ ?a ?b ?sa ?sb ?rst ?rs ?dst _) _ => generalize a b sa sb rst rs dst end. clear -TM. revert h1.
    induction q as [|q IH]; intros h1 a b sa sb rst rs dst; cbn [bk_bmm_go]; [apply skp_ok|]. apply skp_bind; [apply skp_bk_mm|auto].
  Qed.

  (** results that read the same are the same *)
  Lemma alike_eq h p q : alike h p q -> skn p h -> skn q h -> p = q.
  Proof.
    intros [E|(h1 & h2 & r & sh & val & -> & -> & F1 & F2)] S1 S2; [exact E|]. f_equal. f_equal.
    destruct (S1 _ _ eq_refl) as (n1 & K1), (S2 _ _ eq_refl) as (n2 & K2).
    destruct F1 as ([L1 O1] & ER & SH & _ & _ & (l1 & N1 & M1) & G1), F2 as ([L2 O2] & _ & _ & _ & _ & (l2 & N2 & M2) & G2).
    assert (X : forall h1 n l, skel h1 = skel h ++ [n] -> nth_error h1 (length h) = Some (Some l) -> n = Some (length l)).
    { intros g n l K N. apply (f_equal (fun s => nth_error s (length h))) in K. unfold skel in K. rewrite nth_error_map, N in K. cbn [option_map] in K.
      rewrite nth_error_app2, map_length, Nat.sub_diag in K by (rewrite map_length; lia). cbn in K. congruence. }
    apply skel_eq.
    - rewrite K1, K2, (X _ _ _ K1 N1), (X _ _ _ K2 N2). congruence.
    - intros b o. destruct (Nat.lt_trichotomy b (length h)) as [Lb|[->|Gb]].
      + rewrite O1, O2 by exact Lb. reflexivity.
      + destruct (Nat.lt_ge_cases o (prod sh)) as [Lo|Go].
        * destruct (unrank_in_range o sh Lo) as [R RK]. specialize (G1 _ R). specialize (G2 _ R). rewrite <- G2 in G1.
          unfold get in G1. rewrite ER in G1. cbn [fresh_arr a_blk a_off a_stride plus] in G1. rewrite stride_from_shape_rm, <- rank_dot, RK in G1. exact G1.
        * unfold load. rewrite N1, N2. now rewrite !(proj2 (nth_error_None _ _)) by lia.
      + unfold load. now rewrite !(proj2 (nth_error_None _ _)) by lia.
  Qed.
End SkelBuild.
