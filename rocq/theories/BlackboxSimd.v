(** BlackboxSimd.v: the kernels compiled with neon_simd run in the same way over any two element
    types whose values and operations are related.  No function of the library is modelled here. *)
From Coq Require Import List Arith Lia Bool ZArith.
From Verif Require Import Base Layout Views Kernels Access Reduce Einsum Simd Param Blackbox.
Import ListNotations.
Open Scope res_scope.

Section Vec.
  Context {T U : Type}.
  Variable R : T -> U -> Prop.
  Variable L : nat.
  Inductive opr : opnd T -> opnd U -> Prop :=
  | opr_const v v' p p' : R v v' -> sr R p p' -> opr (OConst v p) (OConst v' p')
  | opr_unit p p' : sr R p p' -> opr (OUnit p) (OUnit p')
  | opr_stride p p' s : sr R p p' -> opr (OStride p s) (OStride p' s).
  Hint Constructors opr : bb.
  Lemma bv_load h h' p p' : hr R h h' -> sr R p p' -> rres (Forall2 R) (vload L h p) (vload L h' p').
  Proof. intros H P. unfold vload. apply r_mapM_same. intros i. eauto with bb. Qed.
  Lemma bv_store vs vs' : Forall2 R vs vs' -> forall h h' p, hr R h h' -> rres (hr R) (vstore h p vs) (vstore h' p vs').
  Proof. induction 1; intros; cbn [vstore]; bb. Qed.
  Lemma bv_gather h h' p p' s : hr R h h' -> sr R p p' -> rres (Forall2 R) (vgather L h p s) (vgather L h' p' s).
  Proof. intros. unfold vgather. bb; eauto 8 with bb. Qed.
  Lemma bv_map2 {A B C A' B' C'} (P : A -> A' -> Prop) (Q : B -> B' -> Prop) (S : C -> C' -> Prop) f f' :
    (forall x x' y y', P x x' -> Q y y' -> S (f x y) (f' x' y')) ->
    forall l l' r r', Forall2 P l l' -> Forall2 Q r r' -> Forall2 S (map2 f l r) (map2 f' l' r').
  Proof. intros F l l' r r' H. revert r r'. induction H; intros r r' K; cbn [map2]; [constructor|]. destruct K; constructor; auto. Qed.
  Lemma bv_map g g' : (forall x x', R x x' -> R (g x) (g' x')) -> forall l l', Forall2 R l l' -> Forall2 R (map g l) (map g' l').
  Proof. intros G l l' H. induction H; cbn [map]; constructor; auto. Qed.
  Hint Resolve bv_load bv_store bv_gather : bb.
  Lemma bv_ovec h h' o o' k : hr R h h' -> opr o o' -> rres (Forall2 R) (ovec L h o k) (ovec L h' o' k).
  Proof. intros H []; cbn [ovec]; bb. Qed.
  Lemma bv_next4 o o' : opr o o' -> opr (onext4 L o) (onext4 L o').
  Proof. intros []; cbn [onext4]; eauto with bb. Qed.
  Lemma bv_next1 o o' : opr o o' -> opr (onext1 o) (onext1 o').
  Proof. intros []; cbn [onext1]; eauto with bb. Qed.
  Lemma bv_elt h h' o o' : hr R h h' -> opr o o' -> rres R (oelt h o) (oelt h' o').
  Proof. intros H []; cbn [oelt]; bb. Qed.
  Hint Resolve bv_ovec bv_next4 bv_next1 bv_elt : bb.

  Section Binary.
  Variables (f : T -> T -> T) (f' : U -> U -> U).
  Hypothesis F : forall x x' y y', R x x' -> R y y' -> R (f x y) (f' x' y').
  Let FM x x' y y' : R x x' -> R y y' -> rres R (Ok (f x y)) (Ok (f' x' y')).
  Proof. intros. cbn. auto. Qed.
  Lemma bv_lanes l l' r r' : Forall2 R l l' -> Forall2 R r r' -> Forall2 R (map2 f l r) (map2 f' l' r').
  Proof. now apply bv_map2. Qed.
  Hint Resolve F bv_lanes : bb.
  Lemma bv_tail n : forall h h' a a' b b' d, hr R h h' -> opr a a' -> opr b b' -> rres (hr R) (simd_tail f h a b d n) (simd_tail f' h' a' b' d n).
  Proof. induction n; intros; cbn [simd_tail]; bb. Qed.
  Hint Resolve bv_tail : bb.
  Lemma bv_main fuel : forall h h' a a' b b' d n, hr R h h' -> opr a a' -> opr b b' -> rres (hr R) (simd_main L f fuel h a b d n) (simd_main L f' fuel h' a' b' d n).
  Proof. induction fuel; intros; cbn [simd_main]; destruct (4 * L <=? n); bb. Qed.
  Hint Resolve bv_main : bb.
  Lemma bv_scalar h h' l lsh lst c c' d : hr R h h' -> R c c' -> rres (hr R) (sk_scalar L f h l lsh lst c d) (sk_scalar L f' h' l lsh lst c' d).
  Proof.
    intros H C. pose proof (bb_xn_go R _ _ FM) as XN. unfold sk_scalar, simd_1_0, simd_n_0, k_xn. cbn [src_ld]. bb.
    all: eauto 6 with bb.
  Qed.
  Lemma bv_binary h h' l lst r rst d sh : hr R h h' -> rres (hr R) (sk_binary L f h l lst r rst d sh) (sk_binary L f' h' l lst r rst d sh).
  Proof.
    intros H. pose proof (bb_xn_go R _ _ FM) as XN. pose proof (bb_nx_go R _ _ FM) as NX. pose proof (bb_xx_go R _ _ FM) as XX.
    unfold sk_binary, simd_0_1, simd_1_0, simd_1_1, simd_n_0, simd_0_n, simd_n_1, simd_1_n, simd_n_n, k_xn, k_nx, k_xx. bb.
  Qed.
  Hint Resolve bv_scalar bv_binary : bb.
  Lemma bv_nd_binary z z' h h' a b : hr R h h' -> R z z' -> rres (ar R) (snd_binary L f z h a b) (snd_binary L f' z' h' a b).
  Proof. intros H Z. unfold snd_binary. cbn [alloc]. rewrite <- (hr_len R _ _ H). bb. split; auto. Qed.
  Lemma bv_nd_scalar_op z z' h h' a c c' : hr R h h' -> R z z' -> R c c' -> rres (ar R) (snd_scalar_op L f z h a c) (snd_scalar_op L f' z' h' a c').
  Proof. intros H Z C. unfold snd_scalar_op. cbn [alloc]. rewrite <- (hr_len R _ _ H). bb. split; auto. Qed.
  Lemma bv_nd_assign h h' a b : hr R h h' -> rres (hr R) (snd_assign L f h a b) (snd_assign L f' h' a b).
  Proof. intros. unfold snd_assign. bb. Qed.
  End Binary.

  Section Neg.
  Variables (g : T -> T) (g' : U -> U).
  Hypothesis G : forall x x', R x x' -> R (g x) (g' x').
  Let GM x x' : R x x' -> rres R (Ok (g x)) (Ok (g' x')).
  Proof. intros. cbn. auto. Qed.
  Lemma bv_lanes1 l l' : Forall2 R l l' -> Forall2 R (map g l) (map g' l').
  Proof. now apply bv_map. Qed.
  Hint Resolve G bv_lanes1 : bb.
  Lemma bv_neg_tail n : forall h h' a a' d, hr R h h' -> opr a a' -> rres (hr R) (simd_neg_tail g h a d n) (simd_neg_tail g' h' a' d n).
  Proof. induction n; intros; cbn [simd_neg_tail]; bb. Qed.
  Hint Resolve bv_neg_tail : bb.
  Lemma bv_neg fuel : forall h h' a a' d n, hr R h h' -> opr a a' -> rres (hr R) (simd_neg L g fuel h a d n) (simd_neg L g' fuel h' a' d n).
  Proof. induction fuel; intros; cbn [simd_neg]; destruct (4 * L <=? n); bb. Qed.
  Hint Resolve bv_neg : bb.
  Lemma bv_unary h h' p sh str d : hr R h h' -> rres (hr R) (sk_unary L g h p sh str d) (sk_unary L g' h' p sh str d).
  Proof. intros H. pose proof (bb_ux_go R _ _ GM) as UX. unfold sk_unary. bb. Qed.
  Hint Resolve bv_unary : bb.
  Lemma bv_nd_unary z z' h h' a : hr R h h' -> R z z' -> rres (ar R) (snd_unary L g z h a) (snd_unary L g' z' h' a).
  Proof. intros H Z. unfold snd_unary. cbn [alloc]. rewrite <- (hr_len R _ _ H). bb. split; auto. Qed.
  End Neg.

  Section Sop.
  Variables (zero one : T) (zero' one' : U).
  Variables (add mul : T -> T -> T) (add' mul' : U -> U -> U).
  Variables (fma : T -> T -> T -> T) (fma' : U -> U -> U -> U).
  Hypothesis Z : R zero zero'.
  Hypothesis O : R one one'.
  Hypothesis A : forall x x' y y', R x x' -> R y y' -> R (add x y) (add' x' y').
  Hypothesis M : forall x x' y y', R x x' -> R y y' -> R (mul x y) (mul' x' y').
  Hypothesis FM : forall x x' y y' z z', R x x' -> R y y' -> R z z' -> R (fma x y z) (fma' x' y' z').
  Let AM x x' y y' : R x x' -> R y y' -> rres R (Ok (add x y)) (Ok (add' x' y')).
  Proof. intros. cbn. auto. Qed.
  Let MM x x' y y' : R x x' -> R y y' -> rres R (Ok (mul x y)) (Ok (mul' x' y')).
  Proof. intros. cbn. auto. Qed.
  Let FF x x' y y' z z' : R x x' -> R y y' -> R z z' -> rres R (Ok (fma x y z)) (Ok (fma' x' y' z')).
  Proof. intros. cbn. auto. Qed.
  Lemma bv_combine l l' r r' : Forall2 R l l' -> Forall2 R r r' -> Forall2 (fun p q => R (fst p) (fst q) /\ R (snd p) (snd q)) (combine l r) (combine l' r').
  Proof. intros H. revert r r'. induction H; intros r r' K; cbn [combine]; [constructor|]. destruct K; constructor; auto. Qed.
  Lemma bv_muladd s s' l l' r r' : Forall2 R s s' -> Forall2 R l l' -> Forall2 R r r' -> Forall2 R (vmuladd fma s l r) (vmuladd fma' s' l' r').
  Proof. intros S H K. unfold vmuladd. eapply bv_map2; [|exact S|exact (bv_combine _ _ _ _ H K)]. cbn beta. intros x x' y y' X [Y1 Y2]. auto. Qed.
  Lemma bv_adds l l' r r' : Forall2 R l l' -> Forall2 R r r' -> Forall2 R (map2 add l r) (map2 add' l' r').
  Proof. now apply bv_map2. Qed.
  Lemma bv_muls l l' r r' : Forall2 R l l' -> Forall2 R r r' -> Forall2 R (map2 mul l r) (map2 mul' l' r').
  Proof. now apply bv_map2. Qed.
  Lemma bv_hor s s' : Forall2 R s s' -> rres R (hor_pairs add s) (hor_pairs add' s').
  Proof. intros H. destruct H as [|? ? ? ? ? [|? ? ? ? ? [|? ? ? ? ? [|? ? ? ? ? []]]]]; cbn [hor_pairs rres]; auto. Qed.
  Hint Resolve Z O A M FM bv_muladd bv_adds bv_muls bv_hor : bb.
  Lemma bv_sma_tail n : forall h h' c c' p d, hr R h h' -> R c c' -> rres (hr R) (sma_tail fma h c p d n) (sma_tail fma' h' c' p d n).
  Proof. induction n; intros; cbn [sma_tail]; bb. Qed.
  Hint Resolve bv_sma_tail : bb.
  Lemma bv_sma_one fuel : forall h h' c c' p d n, hr R h h' -> R c c' -> rres (hr R) (sma_one L fma fuel h c p d n) (sma_one L fma' fuel h' c' p d n).
  Proof. induction fuel; intros; cbn [sma_one]; destruct (L <=? n); bb. Qed.
  Hint Resolve bv_sma_one : bb.
  Lemma bv_sma_four fuel : forall h h' c c' p d n, hr R h h' -> R c c' -> rres (hr R) (sma_four L fma fuel h c p d n) (sma_four L fma' fuel h' c' p d n).
  Proof. induction fuel; intros; cbn [sma_four]; destruct (4 * L <=? n); bb. Qed.
  Hint Resolve bv_sma_four : bb.
  Lemma bv_smuladd h h' p q d n : hr R h h' -> rres (hr R) (ssop_muladd L fma h p q d n) (ssop_muladd L fma' h' p q d n).
  Proof. intros. unfold ssop_muladd. bb. Qed.
  Lemma bv_red_tail n : forall h h' p s acc acc', hr R h h' -> R acc acc' -> rres R (red_tail add h p n s acc) (red_tail add' h' p n s acc').
  Proof. induction n; intros; cbn [red_tail]; bb. Qed.
  Hint Resolve bv_smuladd bv_red_tail : bb.
  Lemma bv_ssa_one fuel : forall h h' p n s s', hr R h h' -> Forall2 R s s' -> rres R (ssa_one L add fuel h p n s) (ssa_one L add' fuel h' p n s').
  Proof. induction fuel; intros; cbn [ssa_one]; destruct (L <=? n); bb. Qed.
  Hint Resolve bv_ssa_one : bb.
  Lemma bv_ssa_four fuel : forall h h' p n s s', hr R h h' -> Forall2 R s s' -> rres R (ssa_four L add fuel h p n s) (ssa_four L add' fuel h' p n s').
  Proof. induction fuel; intros; cbn [ssa_four]; destruct (4 * L <=? n); bb. apply IHfuel; [assumption|]. auto 6 with bb. Qed.
  Hint Resolve bv_ssa_four : bb.
  Lemma bv_sscaled h h' p q d n : hr R h h' -> rres (hr R) (ssop_scaled L zero add fma h p q d n) (ssop_scaled L zero' add' fma' h' p q d n).
  Proof. intros. unfold ssop_scaled. bb. Qed.
  Lemma bv_sdp_tail n : forall h h' p q s s', hr R h h' -> R s s' -> rres R (sdp_tail fma h p q n s) (sdp_tail fma' h' p q n s').
  Proof. induction n; intros; cbn [sdp_tail]; bb. Qed.
  Hint Resolve bv_sscaled bv_sdp_tail : bb.
  Lemma bv_sdp_one fuel : forall h h' p q n s s', hr R h h' -> Forall2 R s s' -> rres R (sdp_one L add fma fuel h p q n s) (sdp_one L add' fma' fuel h' p q n s').
  Proof. induction fuel; intros; cbn [sdp_one]; destruct (L <=? n); bb. Qed.
  Hint Resolve bv_sdp_one : bb.
  Lemma bv_sdp_four fuel : forall h h' p q n s s', hr R h h' -> Forall2 R s s' -> rres R (sdp_four L add mul fma fuel h p q n s) (sdp_four L add' mul' fma' fuel h' p q n s').
  Proof. induction fuel; intros; cbn [sdp_four]; destruct (4 * L <=? n); bb. apply IHfuel; [assumption|]. auto 8 with bb. Qed.
  Hint Resolve bv_sdp_four : bb.
  Lemma bv_sdot h h' p q d n : hr R h h' -> rres (hr R) (sdot L zero add mul fma h p q d n) (sdot L zero' add' mul' fma' h' p q d n).
  Proof. intros. unfold sdot. bb. Qed.
  Hint Resolve bv_sdot : bb.
  Lemma bv_two h h' p s q t d ds n : hr R h h' -> rres (hr R) (ssop_two L zero one add mul fma h p s q t d ds n) (ssop_two L zero' one' add' mul' fma' h' p s q t d ds n).
  Proof.
    intros H. pose proof (bb_111 R _ _ _ _ AM MM) as X1. pose proof (bb_out0 R _ _ _ _ _ _ _ _ Z O AM MM) as X2. pose proof (bb_generic R _ _ _ _ _ _ O AM MM) as X3.
    unfold ssop_two. cbv zeta. destruct (_ + _ + _) as [|[|[|[|[|[|[|[|k]]]]]]]]; bb.
  Qed.
  Hint Resolve bv_two : bb.
  Lemma bv_fixed h h' ps ss d ds n : hr R h h' -> rres (hr R) (ssop_fixed L zero one add mul fma h ps ss d ds n) (ssop_fixed L zero' one' add' mul' fma' h' ps ss d ds n).
  Proof.
    intros H. pose proof (bb_out0 R _ _ _ _ _ _ _ _ Z O AM MM) as X2. pose proof (bb_generic R _ _ _ _ _ _ O AM MM) as X3. unfold ssop_fixed. bb.
  Qed.
  Hint Resolve bv_fixed : bb.
  Lemma bv_2labels h h' bases d0 d1 n0 n1 d : hr R h h' -> rres (hr R) (seinsum_2labels L zero one add mul fma h bases d0 d1 n0 n1 d) (seinsum_2labels L zero' one' add' mul' fma' h' bases d0 d1 n0 n1 d).
  Proof. intros H. unfold seinsum_2labels. do 2 (apply rsame; intros _ _). apply r_for_each; [|exact H]. intros. unfold call_sop. bb. Qed.
  Lemma bv_3labels h h' bases d0 d1 d2 n0 n1 n2 d : hr R h h' -> rres (hr R) (seinsum_3labels L zero one add mul fma h bases d0 d1 d2 n0 n1 n2 d) (seinsum_3labels L zero' one' add' mul' fma' h' bases d0 d1 d2 n0 n1 n2 d).
  Proof. intros H. unfold seinsum_3labels. do 3 (apply rsame; intros _ _). apply r_for_each; [|exact H]. intros. apply r_for_each; [|assumption]. intros. unfold call_sop. bb. Qed.
  Hint Resolve bv_2labels bv_3labels : bb.
  Lemma bv_run h h' bases strides sh d : hr R h h' -> rres (hr R) (srun_einsum L zero one add mul fma h bases strides sh d) (srun_einsum L zero' one' add' mul' fma' h' bases strides sh d).
  Proof. intros H. pose proof (bb_unspecialized R _ _ _ _ _ _ _ _ Z O AM MM) as X. unfold srun_einsum. bb. Qed.
  Hint Resolve bv_run bb_fill : bb.
  Lemma bv_into h h' ops subs out rst d : hr R h h' -> rres (hr R) (seinsum_into_ptr L zero one add mul fma h ops subs out rst d) (seinsum_into_ptr L zero' one' add' mul' fma' h' ops subs out rst d).
  Proof. intros. unfold seinsum_into_ptr. bb. Qed.
  Lemma bv_mm h h' a b rst d : hr R h h' -> rres (hr R) (smatrix_matrix L zero one add mul fma h a b rst d) (smatrix_matrix L zero' one' add' mul' fma' h' a b rst d).
  Proof. apply bv_into. Qed.
  Lemma bv_bmm_go n : forall h h' a b sa sb rst rs d, hr R h h' -> rres (hr R) (sbmm_go L zero one add mul fma h a b sa sb rst rs d n) (sbmm_go L zero' one' add' mul' fma' h' a b sa sb rst rs d n).
  Proof. induction n; intros; cbn [sbmm_go]; [assumption|]. eapply rbind; [apply bv_mm; eassumption|auto]. Qed.
  Hint Resolve bv_mm bv_bmm_go : bb.
  Lemma bv_nd_matmul h h' a b : hr R h h' -> rres (ar R) (snd_matmul L zero one add mul fma h a b) (snd_matmul L zero' one' add' mul' fma' h' a b).
  Proof.
    intros H. pose proof (bb_nd_matmul R _ _ _ _ _ _ _ _ _ _ Z O AM MM FF h h' a b H) as X. unfold snd_matmul.
    destruct (a_shape a) as [|n [|k [|]]], (a_shape b) as [|m [|k2 [|]]]; try exact X.
    apply rsame; intros _ _. eapply rbind; [apply (bb_nd_full R); [exact H|exact Z]|]. intros [h1 r] [h1' r'] [E1 E2]. cbn [fst snd] in *. subst r'.
    eapply rbind; [eauto with bb|]. intros h2 h2' E. split; auto.
  Qed.
  Lemma bv_nd_bmm h h' a b : hr R h h' -> rres (ar R) (snd_bmm L zero one add mul fma h a b) (snd_bmm L zero' one' add' mul' fma' h' a b).
  Proof.
    intros H. unfold snd_bmm. destruct (a_shape a) as [|n [|i [|j [|]]]]; try exact I. destruct (a_shape b) as [|n' [|j' [|k [|]]]]; try exact I.
    apply rsame; intros _ _. eapply rbind; [apply (bb_nd_full R); [exact H|exact Z]|]. intros [h1 r] [h1' r'] [E1 E2]. cbn [fst snd] in *. subst r'. bb. split; auto.
  Qed.
  End Sop.
End Vec.
