(** IntsFacts2.v: wrapping arithmetic, and folds of checked and of wrapping operations. *)
From Coq Require Import List Arith Lia Bool ZArith.
From Verif Require Import Base Spec Layout SpecFacts LayoutFacts Views ViewsFacts Kernels Access HeapFacts KernelFacts OpFacts
  AccessFacts Chain ChainFacts Reduce ReduceFacts PropsOps Einsum EinsumFacts EinsumFacts2 EinsumFacts3 EinsumFacts7 Numeric Prog PropsEinsum Param Ints IntsFacts IntsGrow IntsProg.
Import ListNotations.
Open Scope res_scope.
Local Open Scope Z_scope.

Section Wrap.
  Variables lo hi : Z.
  Hypothesis LH : lo <= hi.
  Lemma wrap_in v : lo <= wrap lo hi v <= hi.
  Proof. unfold wrap. pose proof (Z.mod_pos_bound (v - lo) (hi - lo + 1) ltac:(lia)). lia. Qed.
  Lemma wrap_id v : lo <= v <= hi -> wrap lo hi v = v.
  Proof. intros H. unfold wrap. rewrite Z.mod_small by lia. lia. Qed.
  Lemma wrap_cong v : exists k, wrap lo hi v = v + k * (hi - lo + 1).
  Proof. unfold wrap. exists (- ((v - lo) / (hi - lo + 1))). pose proof (Z.div_mod (v - lo) (hi - lo + 1) ltac:(lia)). nia. Qed.
  Lemma wrap_shift v k : wrap lo hi (v + k * (hi - lo + 1)) = wrap lo hi v.
  Proof. unfold wrap. f_equal. replace (v + k * (hi - lo + 1) - lo) with ((v - lo) + k * (hi - lo + 1)) by ring. apply Z.mod_add. lia. Qed.
  Lemma wrap_unique v w k : lo <= w <= hi -> w = v + k * (hi - lo + 1) -> w = wrap lo hi v.
  Proof. intros H E. rewrite <- (wrap_id w H), E. apply wrap_shift. Qed.
  Lemma wrap_add_l x y : wrap lo hi (wrap lo hi x + y) = wrap lo hi (x + y).
  Proof. destruct (wrap_cong x) as (k & ->). rewrite <- (wrap_shift (x + y) k). f_equal. ring. Qed.
  Lemma wrap_add_r x y : wrap lo hi (x + wrap lo hi y) = wrap lo hi (x + y).
  Proof. rewrite Z.add_comm, wrap_add_l. f_equal. ring. Qed.
  Lemma wrap_mul_l x y : wrap lo hi (wrap lo hi x * y) = wrap lo hi (x * y).
  Proof. destruct (wrap_cong x) as (k & ->). rewrite <- (wrap_shift (x * y) (k * y)). f_equal. ring. Qed.
  Lemma wrap_mul_r x y : wrap lo hi (x * wrap lo hi y) = wrap lo hi (x * y).
  Proof. rewrite Z.mul_comm, wrap_mul_l. f_equal. ring. Qed.

  (** folds *)
  Lemma fold_checked (op : Z -> Z -> Z) vs : forall s, (forall k, (1 <= k <= length vs)%nat -> lo <= fold_left op (firstn k vs) s <= hi) ->
    foldM (fun x acc => imk Checks lo hi (op acc x)) vs s = Ok (fold_left op vs s).
  Proof.
    induction vs as [|x vs IH]; intros s H; cbn [foldM fold_left]; [reflexivity|]. unfold imk at 1. rewrite checked_ok by (apply (H 1%nat); cbn [length]; lia). cbn [bind].
    apply IH. intros k K. apply (H (S k)). cbn [length]. lia.
  Qed.
  Lemma fold_overflows (op : Z -> Z -> Z) vs : forall s, (exists k, (1 <= k <= length vs)%nat /\ ~ (lo <= fold_left op (firstn k vs) s <= hi)) ->
    foldM (fun x acc => imk Checks lo hi (op acc x)) vs s = Panic.
  Proof.
    induction vs as [|x vs IH]; intros s (k & K & H); cbn [length] in K; [lia|]. cbn [foldM]. unfold imk at 1, checked.
    destruct (Z.leb_spec lo (op s x)) as [A|A], (Z.leb_spec (op s x) hi) as [B|B]; cbn [andb bind]; try reflexivity.
    apply IH. destruct k as [|[|k]]; [lia| |].
    - exfalso. apply H. cbn [firstn fold_left]. split; assumption.
    - exists (S k). split; [lia|]. exact H.
  Qed.
  Lemma fold_wrap (op : Z -> Z -> Z) vs : (forall a x, wrap lo hi (op (wrap lo hi a) x) = wrap lo hi (op a x)) -> forall s,
    foldM (fun x acc => imk NoChecks lo hi (op acc x)) vs (wrap lo hi s) = Ok (wrap lo hi (fold_left op vs s)).
  Proof.
    intros O. induction vs as [|x vs IH]; intros s; cbn [foldM fold_left]; [reflexivity|]. unfold imk at 1. cbn [bind]. rewrite O. apply IH.
  Qed.
End Wrap.

(** the checked operations refine the exact and the wrapping ones *)
Section Refine.
  Variables lo hi : Z.
  Lemma checked_cases v : checked lo hi v = Panic \/ (lo <= v <= hi /\ checked lo hi v = Ok v).
  Proof. unfold checked. destruct (Z.leb_spec lo v), (Z.leb_spec v hi); cbn [andb]; auto. Qed.
  Lemma mk_exact v : ref (imk Checks lo hi v) (Ok v).
  Proof. destruct (checked_cases v) as [H|[_ H]]; [now left|now right]. Qed.
  Lemma mk_wrap v : ref (imk Checks lo hi v) (imk NoChecks lo hi v).
  Proof. destruct (checked_cases v) as [H|[R H]]; [now left|right]. unfold imk. rewrite H, wrap_id by lia. reflexivity. Qed.
  Definition refines (A B : arith) : Prop :=
    (forall x y, ref (r_add A x y) (r_add B x y)) /\ (forall x y, ref (r_sub A x y) (r_sub B x y)) /\ (forall x y, ref (r_mul A x y) (r_mul B x y)) /\
    (forall x y z, ref (r_fma A x y z) (r_fma B x y z)) /\ (forall x, ref (r_neg A x) (r_neg B x)) /\ (forall x, ref (r_abs A x) (r_abs B x)).
  Lemma checks_exact : refines (type_arith Checks lo hi) exact_arith.
  Proof.
    unfold refines, type_arith, exact_arith, iadd, isub, imul, ineg; cbn [r_add r_sub r_mul r_fma r_neg r_abs]. repeat split; intros; try apply mk_exact.
    - unfold ifma, imul, iadd. destruct (mk_exact (x * y)) as [-> | ->]; [now left|]. apply mk_exact.
    - unfold iabs, ineg. destruct (Z.ltb_spec x 0) as [H|H]; [rewrite Z.abs_neq by lia; apply mk_exact|]. rewrite Z.abs_eq by lia. now right.
  Qed.
  Lemma checks_wrap : refines (type_arith Checks lo hi) (type_arith NoChecks lo hi).
  Proof.
    unfold refines, type_arith, iadd, isub, imul, ineg; cbn [r_add r_sub r_mul r_fma r_neg r_abs]. repeat split; intros; try apply mk_wrap.
    - unfold ifma, imul, iadd. destruct (mk_wrap (x * y)) as [-> | ->]; [now left|]. apply ref_bind; [apply ref_refl|]. intros. apply mk_wrap.
    - unfold iabs, ineg. destruct (x <? 0); [apply mk_wrap|apply ref_refl].
  Qed.

  Lemma made_ref {A B : res (heap Z * arr)} s : ref A B -> ref (made s A) (made s B).
  Proof. intros H. unfold made. apply ref_bind; [exact H|]. intros. apply ref_refl. Qed.
  Lemma stored_ref {A B : res (heap Z)} s : ref A B -> ref (stored s A) (stored s B).
  Proof. intros H. unfold stored. apply ref_bind; [exact H|]. intros. apply ref_refl. Qed.
  (** both sides are the same term: compared as they stand, without unfolding *)
  Ltac same := match goal with |- ref ?x ?x => apply ref_refl end.
  Lemma iexec_ref A B c s : refines A B -> ref (iexec lo hi A c s) (iexec lo hi B c s).
  Proof.
    intros (RA & RS & RM & RF & RN & RB).
    assert (RO : forall o x y, ref (op_of A o x y) (op_of B o x y)) by (intros []; cbn; auto).
    assert (MAX : forall v acc, ref (partial_max_magnitude Z.ltb (r_abs A) v acc) (partial_max_magnitude Z.ltb (r_abs B) v acc)).
    { intros. unfold partial_max_magnitude. apply ref_bind; [apply RB|]. intros. apply ref_refl. }
    assert (MIN : forall v acc, ref (partial_min_magnitude Z.ltb (r_abs A) v acc) (partial_min_magnitude Z.ltb (r_abs B) v acc)).
    { intros. unfold partial_min_magnitude. apply ref_bind; [apply RB|]. intros. apply ref_refl. }
    destruct c; cbn [iexec]; unfold plain; cbn [exec]; try same;
      repeat (apply ref_bind; [same|]; intros); first [apply made_ref|apply stored_ref].
    - now apply ref_nd_binary.
    - now apply ref_nd_scalar_op.
    - now apply ref_nd_unary.
    - now apply ref_nd_assign.
    - now apply ref_nd_assign_scalar.
    - apply ref_nd_reduce. auto.
    - apply ref_nd_reduce. auto.
    - apply ref_nd_reduce. auto.
    - apply ref_nd_reduce. auto.
    - apply ref_nd_reduce_along. auto.
    - apply ref_nd_reduce_along. auto.
    - apply ref_nd_reduce_along. auto.
    - apply ref_nd_reduce_along. auto.
    - apply ref_nd_trace. auto.
    - apply ref_nd_dot; auto.
    - apply ref_nd_matmul; auto.
    - apply ref_nd_bmm; auto.
    - apply ref_nd_einsum; auto.
  Qed.
  Lemma iexec_all_ref A B cs : refines A B -> forall s, ref (iexec_all lo hi A cs s) (iexec_all lo hi B cs s).
  Proof. intros H. induction cs as [|c cs IH]; intros s; cbn [iexec_all]; [apply ref_refl|]. apply ref_bind; [now apply iexec_ref|exact IH]. Qed.
End Refine.
