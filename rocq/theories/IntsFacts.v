(** IntsFacts.v: lemmas on integer arithmetic with and without overflow checks. *)
From Coq Require Import List Arith Lia Bool ZArith.
From Verif Require Import Base Spec Layout SpecFacts LayoutFacts Views ViewsFacts Kernels Access HeapFacts KernelFacts OpFacts
  AccessFacts Chain ChainFacts Reduce ReduceFacts PropsOps Einsum EinsumFacts EinsumFacts2 EinsumFacts3 EinsumFacts7 Numeric Ints Param.
Import ListNotations.
Open Scope res_scope.

(** ** An operation whose element operations may panic panics itself or runs like the one
    whose element operations do not *)
Definition ref {A} (x y : res A) : Prop := x = Panic \/ x = y.
Lemma ref_refl {A} (x : res A) : ref x x. Proof. now right. Qed.
Lemma ref_bind {A B} (x y : res A) (f g : A -> res B) : ref x y -> (forall a, ref (f a) (g a)) -> ref (a <- x ;; f a) (a <- y ;; g a).
Proof. intros [-> | ->] H; [now left|]. destruct y; cbn [bind]; [apply H|now right|now right]. Qed.

Ltac rf := repeat first
  [ match goal with |- ref ?x ?x => apply ref_refl end
  | match goal with |- ref (bind _ _) (bind _ _) => apply ref_bind; [|intros] end
  | match goal with |- ref (match ?x with _ => _ end) _ => destruct x end
  | solve [auto] ].

Section Binary.
  Context {T : Type}.
  Variables f g : T -> T -> res T.
  Hypothesis F : forall x y, ref (f x y) (g x y).
  Lemma ref_nn n : forall h l ls r rs d, ref (k_nn f h l ls r rs d n) (k_nn g h l ls r rs d n).
  Proof. induction n; intros; cbn [k_nn]; rf. Qed.
  Lemma ref_xn_go is : forall n h l r rs d, ref (k_xn_go f h l is r rs d n) (k_xn_go g h l is r rs d n).
  Proof. induction is; intros n h l r rs d; destruct n; cbn [k_xn_go]; rf. Qed.
  Lemma ref_nx_go is : forall n h l ls r d, ref (k_nx_go f h l ls r is d n) (k_nx_go g h l ls r is d n).
  Proof. induction is; intros n h l ls r d; destruct n; cbn [k_nx_go]; rf. Qed.
  Lemma ref_xx_go is : forall h l r js d, ref (k_xx_go f h l is r js d) (k_xx_go g h l is r js d).
  Proof. induction is; intros; cbn [k_xx_go]; rf. Qed.
  Hint Resolve ref_nn ref_xn_go ref_nx_go ref_xx_go : core.
  Lemma ref_scalar h l lsh lst c d : ref (k_scalar f h l lsh lst c d) (k_scalar g h l lsh lst c d).
  Proof. unfold k_scalar, k_xn. rf. Qed.
  Lemma ref_binary h l lst r rst d sh : ref (k_binary f h l lst r rst d sh) (k_binary g h l lst r rst d sh).
  Proof. unfold k_binary, k_xn, k_nx, k_xx. cbv zeta. rf. Qed.
  Hint Resolve ref_scalar ref_binary : core.
  Lemma ref_nd_binary z h a b : ref (nd_binary f z h a b) (nd_binary g z h a b).
  Proof. unfold nd_binary. cbn [alloc]. rf. Qed.
  Lemma ref_nd_scalar_op z h a c : ref (nd_scalar_op f z h a c) (nd_scalar_op g z h a c).
  Proof. unfold nd_scalar_op. cbn [alloc]. rf. Qed.
  Lemma ref_nd_assign h a b : ref (nd_assign f h a b) (nd_assign g h a b).
  Proof. unfold nd_assign. rf. Qed.
  Lemma ref_nd_assign_scalar h a c : ref (nd_assign_scalar f h a c) (nd_assign_scalar g h a c).
  Proof. unfold nd_assign_scalar. rf. Qed.
  Lemma ref_fold_run n : forall h p s acc, ref (fold_run f h p n s acc) (fold_run g h p n s acc).
  Proof. induction n; intros; cbn [fold_run]; rf. Qed.
  Lemma ref_fold_idx is : forall h p acc, ref (fold_idx f h p is acc) (fold_idx g h p is acc).
  Proof. induction is; intros; cbn [fold_idx]; rf. Qed.
  Hint Resolve ref_fold_run ref_fold_idx : core.
  Lemma ref_nd_reduce d h a : ref (nd_reduce f d h a) (nd_reduce g d h a).
  Proof. unfold nd_reduce, k_reduce. rf. Qed.
  Lemma ref_along_go is : forall h p js out, ref (along_go f h p is js out) (along_go g h p is js out).
  Proof. induction is; intros; cbn [along_go]; rf. Qed.
  Hint Resolve ref_along_go : core.
  Lemma ref_nd_reduce_along d h a axes : ref (nd_reduce_along f d h a axes) (nd_reduce_along g d h a axes).
  Proof. unfold nd_reduce_along. rf. Qed.
End Binary.

Section Unary.
  Context {T : Type}.
  Variables f g : T -> res T.
  Hypothesis F : forall x, ref (f x) (g x).
  Lemma ref_un n : forall h p s d, ref (k_un f h p s d n) (k_un g h p s d n).
  Proof. induction n; intros; cbn [k_un]; rf. Qed.
  Lemma ref_ux_go is : forall h p d, ref (k_ux_go f h p is d) (k_ux_go g h p is d).
  Proof. induction is; intros; cbn [k_ux_go]; rf. Qed.
  Hint Resolve ref_un ref_ux_go : core.
  Lemma ref_nd_unary z h a : ref (nd_unary f z h a) (nd_unary g z h a).
  Proof. unfold nd_unary, k_unary. cbn [alloc]. rf. Qed.
End Unary.

Section Sop.
  Context {T : Type}.
  Variables zero one : T.
  Variables add mul add' mul' : T -> T -> res T.
  Variables fma fma' : T -> T -> T -> res T.
  Hypothesis A : forall x y, ref (add x y) (add' x y).
  Hypothesis M : forall x y, ref (mul x y) (mul' x y).
  Hypothesis FM : forall x y z, ref (fma x y z) (fma' x y z).
  Lemma ref_prod_at k h ps : forall ss acc, ref (prod_at mul h ps ss k acc) (prod_at mul' h ps ss k acc).
  Proof. induction ps; intros; cbn [prod_at]; rf. Qed.
  Lemma ref_add_to h d v : ref (add_to add h d v) (add_to add' h d v).
  Proof. unfold add_to. rf. Qed.
  Hint Resolve ref_prod_at ref_add_to : core.
  Lemma ref_generic_go k : forall h ps ss d ds, ref (sop_generic_go one add mul h ps ss d ds k) (sop_generic_go one add' mul' h ps ss d ds k).
  Proof. induction k; intros; cbn [sop_generic_go]; rf. Qed.
  Lemma ref_out0_go k : forall h ps ss s, ref (sop_out0_go one add mul h ps ss k s) (sop_out0_go one add' mul' h ps ss k s).
  Proof. induction k; intros; cbn [sop_out0_go]; rf. Qed.
  Lemma ref_muladd_go n : forall h c p d, ref (muladd_go fma h c p d n) (muladd_go fma' h c p d n).
  Proof. induction n; intros; cbn [muladd_go]; rf. Qed.
  Lemma ref_111_go n : forall h p q d, ref (sop_111_go add mul h p q d n) (sop_111_go add' mul' h p q d n).
  Proof. induction n; intros; cbn [sop_111_go]; rf. Qed.
  Lemma ref_dot_go n : forall h p s q t acc, ref (dot_go add mul h p s q t n acc) (dot_go add' mul' h p s q t n acc).
  Proof. induction n; intros; cbn [dot_go]; rf. Qed.
  Lemma ref_fold_add n h p s acc : ref (fold_run (fun v acc => add acc v) h p n s acc) (fold_run (fun v acc => add' acc v) h p n s acc).
  Proof. apply ref_fold_run. auto. Qed.
  Hint Resolve ref_generic_go ref_out0_go ref_muladd_go ref_111_go ref_dot_go ref_fold_add : core.
  Lemma ref_generic h ps ss d ds n : ref (sop_generic one add mul h ps ss d ds n) (sop_generic one add' mul' h ps ss d ds n).
  Proof. unfold sop_generic. rf. Qed.
  Lemma ref_out0 h ps ss d n : ref (sop_out0 zero one add mul h ps ss d n) (sop_out0 zero one add' mul' h ps ss d n).
  Proof. unfold sop_out0. rf. Qed.
  Lemma ref_muladd h p q d n : ref (sop_muladd fma h p q d n) (sop_muladd fma' h p q d n).
  Proof. unfold sop_muladd. rf. Qed.
  Lemma ref_scaled h p q d n : ref (sop_scaled zero add fma h p q d n) (sop_scaled zero add' fma' h p q d n).
  Proof. unfold sop_scaled. rf. Qed.
  Lemma ref_111 h p q d n : ref (sop_111 add mul h p q d n) (sop_111 add' mul' h p q d n).
  Proof. unfold sop_111. rf. Qed.
  Lemma ref_strided_dot h p s q t d n : ref (strided_dot zero add mul h p s q t d n) (strided_dot zero add' mul' h p s q t d n).
  Proof. unfold strided_dot. rf. Qed.
  Hint Resolve ref_generic ref_out0 ref_muladd ref_scaled ref_111 ref_strided_dot : core.
  Lemma ref_two h p s q t d ds n : ref (sop_two zero one add mul fma h p s q t d ds n) (sop_two zero one add' mul' fma' h p s q t d ds n).
  Proof. unfold sop_two. cbv zeta. destruct (_ + _ + _) as [|[|[|[|[|[|[|[|k]]]]]]]]; rf. Qed.
  Hint Resolve ref_two : core.
  Lemma ref_fixed h ps ss d ds n : ref (sop_fixed zero one add mul fma h ps ss d ds n) (sop_fixed zero one add' mul' fma' h ps ss d ds n).
  Proof. unfold sop_fixed. rf. Qed.
  Lemma ref_slice h ps ss d ds n : ref (sop_slice zero one add mul h ps ss d ds n) (sop_slice zero one add' mul' h ps ss d ds n).
  Proof. unfold sop_slice. rf. Qed.
  Hint Resolve ref_fixed ref_slice : core.
  Lemma ref_for_each {X S} (f g : X -> S -> res S) l : (forall x s, ref (f x s) (g x s)) -> forall s, ref (for_each f l s) (for_each g l s).
  Proof. intros H. induction l; intros; cbn [for_each]; rf. Qed.
  Lemma ref_unspec_go k : forall g h bases d inner n, ref (unspec_go zero one add mul k g h bases d inner n) (unspec_go zero one add' mul' k g h bases d inner n).
  Proof. induction k; intros; cbn [unspec_go]; unfold call_sop; rf. Qed.
  Hint Resolve ref_unspec_go : core.
  Lemma ref_unspecialized h bases strides sh d : ref (unspecialized zero one add mul h bases strides sh d) (unspecialized zero one add' mul' h bases strides sh d).
  Proof. unfold unspecialized. rf. Qed.
  Hint Resolve ref_unspecialized : core.
  Lemma ref_2labels h bases d0 d1 n0 n1 d : ref (einsum_2labels zero one add mul fma h bases d0 d1 n0 n1 d) (einsum_2labels zero one add' mul' fma' h bases d0 d1 n0 n1 d).
  Proof. unfold einsum_2labels. do 2 (apply ref_bind; [rf|intros _]). apply ref_for_each. intros. unfold call_sop. auto. Qed.
  Lemma ref_3labels h bases d0 d1 d2 n0 n1 n2 d : ref (einsum_3labels zero one add mul fma h bases d0 d1 d2 n0 n1 n2 d) (einsum_3labels zero one add' mul' fma' h bases d0 d1 d2 n0 n1 n2 d).
  Proof. unfold einsum_3labels. do 3 (apply ref_bind; [rf|intros _]). apply ref_for_each. intros. apply ref_for_each. intros. unfold call_sop. auto. Qed.
  Hint Resolve ref_2labels ref_3labels : core.
  Lemma ref_run h bases strides sh d : ref (run_einsum zero one add mul fma h bases strides sh d) (run_einsum zero one add' mul' fma' h bases strides sh d).
  Proof. unfold run_einsum. rf. Qed.
  Hint Resolve ref_run : core.
  Lemma ref_nd_einsum h ops subs out : ref (nd_einsum zero one add mul fma h ops subs out) (nd_einsum zero one add' mul' fma' h ops subs out).
  Proof. unfold nd_einsum. cbn [alloc]. rf. Qed.
  Lemma ref_into h ops subs out rst d : ref (einsum_into_ptr zero one add mul fma h ops subs out rst d) (einsum_into_ptr zero one add' mul' fma' h ops subs out rst d).
  Proof. unfold einsum_into_ptr. rf. Qed.
  Lemma ref_mm h a b rst d : ref (matrix_matrix zero one add mul fma h a b rst d) (matrix_matrix zero one add' mul' fma' h a b rst d).
  Proof. apply ref_into. Qed.
  Lemma ref_nd_dot h a b : ref (nd_dot zero add mul h a b) (nd_dot zero add' mul' h a b).
  Proof. unfold nd_dot. rf. Qed.
  Lemma ref_matvec_go n : forall h row rs s v t d c, ref (matvec_go zero add mul h row rs s v t d c n) (matvec_go zero add' mul' h row rs s v t d c n).
  Proof. induction n; intros; cbn [matvec_go]; rf. Qed.
  Lemma ref_bmm_go n : forall h a b sa sb rst rs d, ref (bmm_go zero one add mul fma h a b sa sb rst rs d n) (bmm_go zero one add' mul' fma' h a b sa sb rst rs d n).
  Proof. induction n; intros; cbn [bmm_go]; [apply ref_refl|]. apply ref_bind; [apply ref_mm|auto]. Qed.
  Hint Resolve ref_mm ref_nd_dot ref_matvec_go ref_bmm_go : core.
  Lemma ref_nd_matmul h a b : ref (nd_matmul zero one add mul fma h a b) (nd_matmul zero one add' mul' fma' h a b).
  Proof. unfold nd_matmul. cbn [alloc]. rf. Qed.
  Lemma ref_nd_bmm h a b : ref (nd_bmm zero one add mul fma h a b) (nd_bmm zero one add' mul' fma' h a b).
  Proof. unfold nd_bmm. rf. Qed.
  Lemma ref_nd_trace h a o i j : ref (nd_trace zero add h a o i j) (nd_trace zero add' h a o i j).
  Proof. unfold nd_trace. apply ref_bind; [rf|]. intros d. apply ref_nd_reduce_along. auto. Qed.
End Sop.
