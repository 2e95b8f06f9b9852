(** Param.v: the sums of products run in the same way over any two number types.  If two
    heaps are related cell by cell and the operations respect the relation, the results of
    dot, matmul, bmm and einsum are related.  Used to transfer the exact results of C26, C27
    and C51 to floats. *)
From Coq Require Import List Arith Lia Bool ZArith.
From Verif Require Import Base Spec Layout SpecFacts LayoutFacts Views ViewsFacts Kernels Access HeapFacts KernelFacts OpFacts
  AccessFacts Chain ChainFacts Reduce ReduceFacts PropsOps Einsum EinsumFacts EinsumFacts2 EinsumFacts3 EinsumFacts7 Simd SimdFacts SimdOps SimdRed SimdSop.
Import ListNotations.
Open Scope res_scope.

Definition rres {A B} (P : A -> B -> Prop) (x : res A) (y : res B) : Prop :=
  match x, y with Ok a, Ok b => P a b | Panic, Panic => True | Oob, Oob => True | _, _ => False end.
Lemma rbind {A B C D} (P : A -> B -> Prop) (Q : C -> D -> Prop) m m' k k' :
  rres P m m' -> (forall x y, P x y -> rres Q (k x) (k' y)) -> rres Q (x <- m ;; k x) (y <- m' ;; k' y).
Proof. destruct m, m'; cbn; try tauto. auto. Qed.
Lemma rsame {A C D} (Q : C -> D -> Prop) (m : res A) k k' : (forall x, m = Ok x -> rres Q (k x) (k' x)) -> rres Q (x <- m ;; k x) (y <- m ;; k' y).
Proof. destruct m; cbn; auto. Qed.
Lemma rimp {A B} (P Q : A -> B -> Prop) m m' : (forall x y, P x y -> Q x y) -> rres P m m' -> rres Q m m'.
Proof. destruct m, m'; cbn; auto. Qed.
Lemma r_for_each {A S S'} (P : S -> S' -> Prop) (f : A -> S -> res S) (f' : A -> S' -> res S') l :
  (forall x s s', In x l -> P s s' -> rres P (f x s) (f' x s')) -> forall s s', P s s' -> rres P (for_each f l s) (for_each f' l s').
Proof.
  induction l as [|x l IH]; intros H s s' E; cbn [for_each]; [exact E|].
  eapply rbind; [apply H; [now left|exact E]|]. intros y y' E'. apply IH; [|exact E']. intros z t t' I. apply H. now right.
Qed.

Section Param.
  Context {T U : Type}.
  (** x stands for a *)
  Variable R : T -> U -> Prop.
  (** values that may be factors of a product *)
  Variable G : U -> Prop.
  Variables (zero one : T) (add mul : T -> T -> T) (fma : T -> T -> T -> T).
  Variables (zero' one' : U) (add' mul' : U -> U -> U).
  Let addM := fun x y => Ok (add x y).
  Let mulM := fun x y => Ok (mul x y).
  Let fmaM := fun x y z => Ok (fma x y z).
  Let addM' := fun x y => Ok (add' x y).
  Let mulM' := fun x y => Ok (mul' x y).
  Let fmaM' := fun x y z => Ok (add' (mul' x y) z).
  Hypothesis Rzero : R zero zero'.
  Hypothesis Rone : R one one'.
  Hypothesis Radd : forall x a y b, R x a -> R y b -> R (add x y) (add' a b).
  Hypothesis Gadd : forall a b, G a \/ G b -> G (add' a b).
  Hypothesis Rmul : forall x a y b, R x a -> G a -> R y b -> G b -> R (mul x y) (mul' a b).
  Hypothesis Gmul : forall a b, G a -> G b -> G (mul' a b).
  Hypothesis Rmul1 : forall y b, R y b -> G b -> R (mul one y) (mul' one' b).
  Hypothesis Gmul1 : forall b, G b -> G (mul' one' b).
  Hypothesis Rfma : forall x a y b z c, R x a -> G a -> R y b -> G b -> R z c -> R (fma x y z) (add' (mul' a b) c).

  Section Block.
  (** block that is written, and the heap before the operation *)
  Variable b : nat.
  Variable h0 : heap T.

  Definition Sr (x : T) (a : U) : Prop := R x a /\ G a.
  Definition hrel (h : heap T) (h' : heap U) : Prop :=
    length h = length h' /\
    (forall c o, rres (fun x a => R x a /\ (c <> b -> G a)) (load h c o) (load h' c o)) /\
    (forall c o, c <> b -> load h c o = load h0 c o).

  Lemma hrel_ld h h' p : hrel h h' -> rres R (ld h p) (ld h' p).
  Proof. intros (_ & H & _). eapply rimp; [|apply H]. intros x y [A _]. exact A. Qed.
  Lemma hrel_src h h' p : hrel h h' -> fst p <> b -> rres Sr (ld h p) (ld h' p).
  Proof. intros (_ & H & _) N. eapply rimp; [|apply H]. intros x y [A B]. split; auto. Qed.
  Lemma hrel_st h h' p x a : hrel h h' -> fst p = b -> R x a -> rres hrel (st h p x) (st h' p a).
  Proof.
    intros (L & H & F) E X. unfold st. destruct p as [c o]; cbn [fst snd] in *. subst c. pose proof (H b o) as HO.
    destruct (load h b o) as [y| |] eqn:El.
    - destruct (load h' b o) as [y'| |] eqn:El'; cbn in HO; try tauto.
      destruct (store_ok h b o x y El) as (h1 & E1). destruct (store_ok h' b o a y' El') as (h1' & E1'). rewrite E1, E1'. cbn. split; [|split].
      + now rewrite (store_length _ _ _ _ _ E1), (store_length _ _ _ _ _ E1').
      + intros c o'. rewrite (load_store _ _ _ _ _ E1), (load_store _ _ _ _ _ E1'). destruct ((c =? b) && (o' =? o)) eqn:B; [|apply H].
        apply andb_prop in B as [B _]. apply Nat.eqb_eq in B. cbn. split; [exact X|]. intros N. contradiction.
      + intros c o' N. rewrite (load_store_other _ _ _ _ _ c o' E1) by congruence. now apply F.
    - now apply load_not_panic in El.
    - destruct (load h' b o) as [y'| |] eqn:El'; cbn in HO; try tauto.
      destruct (store h b o x) as [z| |] eqn:Z; [apply store_load_ok in Z as (? & Z); congruence|now apply store_not_panic in Z|].
      destruct (store h' b o a) as [z| |] eqn:Z'; [apply store_load_ok in Z' as (? & Z'); congruence|now apply store_not_panic in Z'|]. exact I.
  Qed.

  Lemma r_prod_at h h' (H : hrel h h') k : forall ps ss acc acc', Forall (fun p : ptr => fst p <> b) ps -> R acc acc' -> (G acc' \/ acc = one /\ acc' = one') ->
    rres (fun x a => R x a /\ (G a \/ x = one /\ a = one')) (prod_at mulM h ps ss k acc) (prod_at mulM' h' ps ss k acc').
  Proof.
    induction ps as [|p ps IH]; intros ss acc acc' F A B; cbn [prod_at]; [cbn; auto|]. destruct ss as [|s ss]; [cbn; auto|].
    inversion F as [|? ? F1 F2]; subst. eapply rbind; [apply hrel_src; [exact H|exact F1]|]. intros x y [X Y]. unfold mulM, mulM'. cbn [bind].
    destruct B as [B|[-> ->]]; apply IH; auto.
  Qed.
  Lemma r_prod h h' ps ss k : hrel h h' -> Forall (fun p : ptr => fst p <> b) ps -> rres R (prod_at mulM h ps ss k one) (prod_at mulM' h' ps ss k one').
  Proof. intros H F. eapply rimp; [|apply (r_prod_at h h' H k ps ss one one' F); auto]. intros x y [A _]. exact A. Qed.

  Lemma r_add_to h h' p v v' : hrel h h' -> fst p = b -> R v v' -> rres hrel (add_to addM h p v) (add_to addM' h' p v').
  Proof. intros H E V. unfold add_to, addM, addM'. eapply rbind; [apply hrel_ld, H|]. intros x y X. cbn [bind]. apply hrel_st; auto. Qed.

  Lemma r_generic_go ps ss dst ds k : forall h h', hrel h h' -> Forall (fun p : ptr => fst p <> b) ps -> fst dst = b ->
    rres hrel (sop_generic_go one addM mulM h ps ss dst ds k) (sop_generic_go one' addM' mulM' h' ps ss dst ds k).
  Proof.
    induction k as [|k IH]; intros h h' H F D; cbn [sop_generic_go]; [exact H|]. eapply rbind; [apply r_prod; [exact H|exact F]|].
    intros v v' V. eapply rbind; [apply r_add_to; [exact H|exact D|exact V]|]. intros h1 h1' H1. now apply IH.
  Qed.
  Lemma r_generic ps ss dst ds n h h' : hrel h h' -> Forall (fun p : ptr => fst p <> b) ps -> fst dst = b ->
    rres hrel (sop_generic one addM mulM h ps ss dst ds n) (sop_generic one' addM' mulM' h' ps ss dst ds n).
  Proof. intros H F D. unfold sop_generic. apply rsame. intros _ _. now apply r_generic_go. Qed.
  Lemma r_out0_go h h' (H : hrel h h') ps ss k : Forall (fun p : ptr => fst p <> b) ps -> forall s s', R s s' ->
    rres R (sop_out0_go one addM mulM h ps ss k s) (sop_out0_go one' addM' mulM' h' ps ss k s').
  Proof.
    intros F. induction k as [|k IH]; intros s s' E; cbn [sop_out0_go]; [exact E|]. eapply rbind; [apply r_prod; [exact H|exact F]|].
    intros v v' V. unfold addM, addM'. cbn [bind]. auto.
  Qed.
  Lemma r_out0 ps ss dst n h h' : hrel h h' -> Forall (fun p : ptr => fst p <> b) ps -> fst dst = b ->
    rres hrel (sop_out0 zero one addM mulM h ps ss dst n) (sop_out0 zero' one' addM' mulM' h' ps ss dst n).
  Proof.
    intros H F D. unfold sop_out0. apply rsame. intros _ _. eapply rbind; [apply r_out0_go; eauto|]. intros s s' E. now apply r_add_to.
  Qed.

  Lemma r_muladd_go c c' : R c c' -> G c' -> forall n h h' data dst, hrel h h' -> fst data <> b -> fst dst = b ->
    rres hrel (muladd_go fmaM h c data dst n) (muladd_go fmaM' h' c' data dst n).
  Proof.
    intros C C'. induction n as [|n IH]; intros h h' data dst H N D; cbn [muladd_go]; [exact H|].
    eapply rbind; [apply hrel_src; [exact H|exact N]|]. intros x x' [X X']. eapply rbind; [apply hrel_ld, H|]. intros y y' Y. unfold fmaM, fmaM'. cbn [bind].
    eapply rbind; [apply hrel_st; [exact H|exact D|apply Rfma; auto]|]. intros h1 h1' H1. apply IH; auto.
  Qed.
  Lemma r_muladd h h' p0 p1 dst n : hrel h h' -> fst p0 <> b -> fst p1 <> b -> fst dst = b ->
    rres hrel (sop_muladd fmaM h p0 p1 dst n) (sop_muladd fmaM' h' p0 p1 dst n).
  Proof.
    intros H N0 N1 D. unfold sop_muladd. apply rsame. intros _ _. eapply rbind; [apply hrel_src; [exact H|exact N0]|]. intros c c' [C C']. now apply r_muladd_go.
  Qed.

  Lemma r_fold_S h h' (H : hrel h h') s n : forall p acc acc', fst p <> b -> Sr acc acc' ->
    rres Sr (fold_run (fun v acc => addM acc v) h p n s acc) (fold_run (fun v acc => addM' acc v) h' p n s acc').
  Proof.
    induction n as [|n IH]; intros p acc acc' N A; cbn [fold_run]; [exact A|]. eapply rbind; [apply hrel_src; [exact H|exact N]|]. intros x x' [X X'].
    unfold addM at 1, addM' at 1. cbn [bind]. apply IH; [exact N|]. destruct A. split; auto.
  Qed.
  Lemma r_fold h h' (H : hrel h h') s n p acc acc' : fst p <> b -> R acc acc' -> 0 < n ->
    rres Sr (fold_run (fun v acc => addM acc v) h p n s acc) (fold_run (fun v acc => addM' acc v) h' p n s acc').
  Proof.
    intros N A P. destruct n as [|n]; [lia|]. cbn [fold_run]. eapply rbind; [apply hrel_src; [exact H|exact N]|]. intros x x' [X X'].
    unfold addM at 1, addM' at 1. cbn [bind]. apply r_fold_S; [exact H|exact N|]. split; auto.
  Qed.
  Lemma r_scaled h h' p0 p1 dst n : hrel h h' -> fst p0 <> b -> fst p1 <> b -> fst dst = b ->
    rres hrel (sop_scaled zero addM fmaM h p0 p1 dst n) (sop_scaled zero' addM' fmaM' h' p0 p1 dst n).
  Proof.
    intros H N0 N1 D. unfold sop_scaled. apply rsame. intros x0 P. assert (0 < n) by (unfold uassert in P; destruct (Nat.ltb_spec 0 n); [assumption|discriminate]).
    eapply rbind; [apply hrel_src; [exact H|exact N0]|]. intros c c' [C C']. eapply rbind; [apply r_fold; eauto|]. intros s s' [X X'].
    eapply rbind; [apply hrel_ld, H|]. intros y y' Y. unfold fmaM, fmaM'. cbn [bind]. apply hrel_st; auto.
  Qed.
  Lemma r_111_go n : forall h h' p0 p1 dst, hrel h h' -> fst p0 <> b -> fst p1 <> b -> fst dst = b ->
    rres hrel (sop_111_go addM mulM h p0 p1 dst n) (sop_111_go addM' mulM' h' p0 p1 dst n).
  Proof.
    induction n as [|n IH]; intros h h' p0 p1 dst H N0 N1 D; cbn [sop_111_go]; [exact H|].
    eapply rbind; [apply hrel_src; [exact H|exact N0]|]. intros x x' [X X']. eapply rbind; [apply hrel_src; [exact H|exact N1]|]. intros y y' [Y Y'].
    unfold mulM at 1, mulM' at 1. cbn [bind]. eapply rbind; [apply r_add_to; auto|]. intros h1 h1' H1. apply IH; auto.
  Qed.
  Lemma r_dot_go h h' (H : hrel h h') s0 s1 n : forall p0 p1 acc acc', fst p0 <> b -> fst p1 <> b -> R acc acc' ->
    rres R (dot_go addM mulM h p0 s0 p1 s1 n acc) (dot_go addM' mulM' h' p0 s0 p1 s1 n acc').
  Proof.
    induction n as [|n IH]; intros p0 p1 acc acc' N0 N1 A; cbn [dot_go]; [exact A|].
    eapply rbind; [apply hrel_src; [exact H|exact N0]|]. intros x x' [X X']. eapply rbind; [apply hrel_src; [exact H|exact N1]|]. intros y y' [Y Y'].
    unfold mulM at 1, mulM' at 1, addM at 1, addM' at 1. cbn [bind]. apply IH; auto.
  Qed.
  Lemma r_strided_dot h h' p0 s0 p1 s1 dst n : hrel h h' -> fst p0 <> b -> fst p1 <> b -> fst dst = b ->
    rres hrel (strided_dot zero addM mulM h p0 s0 p1 s1 dst n) (strided_dot zero' addM' mulM' h' p0 s0 p1 s1 dst n).
  Proof. intros H N0 N1 D. unfold strided_dot. eapply rbind; [apply r_dot_go; eauto|]. intros s s' E. now apply r_add_to. Qed.

  Definition rsop (f : heap T -> list ptr -> list nat -> ptr -> nat -> nat -> res (heap T)) (f' : heap U -> list ptr -> list nat -> ptr -> nat -> nat -> res (heap U)) : Prop :=
    forall h h' ps ss dst ds n, hrel h h' -> Forall (fun p : ptr => fst p <> b) ps -> fst dst = b -> rres hrel (f h ps ss dst ds n) (f' h' ps ss dst ds n).

  Lemma r_slice : rsop (sop_slice zero one addM mulM) (sop_slice zero' one' addM' mulM').
  Proof. intros h h' ps ss dst ds n H F D. unfold sop_slice. destruct (ds =? 0); [now apply r_out0|now apply r_generic]. Qed.
  Lemma r_two h h' p0 s0 p1 s1 dst ds n : hrel h h' -> fst p0 <> b -> fst p1 <> b -> fst dst = b ->
    rres hrel (sop_two zero one addM mulM fmaM h p0 s0 p1 s1 dst ds n) (sop_two zero' one' addM' mulM' fmaM' h' p0 s0 p1 s1 dst ds n).
  Proof.
    intros H N0 N1 D. unfold sop_two. assert (Fp : Forall (fun p : ptr => fst p <> b) [p0; p1]) by auto.
    assert (DEF : rres hrel (if ds =? 0 then sop_out0 zero one addM mulM h [p0; p1] [s0; s1] dst n else sop_generic one addM mulM h [p0; p1] [s0; s1] dst ds n)
      (if ds =? 0 then sop_out0 zero' one' addM' mulM' h' [p0; p1] [s0; s1] dst n else sop_generic one' addM' mulM' h' [p0; p1] [s0; s1] dst ds n)).
    { destruct (ds =? 0); [now apply r_out0|now apply r_generic]. }
    cbv zeta. destruct (_ + _ + _) as [|[|[|[|[|[|[|[|k]]]]]]]]; try exact DEF.
    - now apply r_scaled.
    - now apply r_muladd.
    - now apply r_scaled.
    - now apply r_muladd.
    - apply rsame. intros _ _. now apply r_strided_dot.
    - unfold sop_111. apply rsame. intros _ _. now apply r_111_go.
  Qed.
  Lemma r_fixed : rsop (sop_fixed zero one addM mulM fmaM) (sop_fixed zero' one' addM' mulM' fmaM').
  Proof.
    intros h h' ps ss dst ds n H F D. unfold sop_fixed.
    assert (DEF : rres hrel (if ds =? 0 then sop_out0 zero one addM mulM h ps ss dst n else sop_generic one addM mulM h ps ss dst ds n)
      (if ds =? 0 then sop_out0 zero' one' addM' mulM' h' ps ss dst n else sop_generic one' addM' mulM' h' ps ss dst ds n)).
    { destruct (ds =? 0); [now apply r_out0|now apply r_generic]. }
    destruct ps as [|p0 [|p1 [|? ?]]]; try exact DEF. destruct ss as [|s0 [|s1 [|? ?]]]; try exact DEF.
    inversion F as [|? ? F1 F2]; subst. inversion F2; subst. now apply r_two.
  Qed.

  Lemma padds_src ps : forall os, Forall (fun p : ptr => fst p <> b) ps -> Forall (fun p : ptr => fst p <> b) (padds ps os).
  Proof. induction ps as [|p ps IH]; intros [|o os] F; cbn [padds]; constructor; inversion F; subst; auto. Qed.
  Lemma r_call f f' : rsop f f' -> forall h h' bases dst offs inner n, hrel h h' -> Forall (fun p : ptr => fst p <> b) bases -> fst dst = b ->
    rres hrel (call_sop f h bases dst offs inner n) (call_sop f' h' bases dst offs inner n).
  Proof. intros F h h' bases dst offs inner n H B D. unfold call_sop. apply F; [exact H|now apply padds_src|exact D]. Qed.

  Lemma r_unspec_go bases dst inner n0 : Forall (fun p : ptr => fst p <> b) bases -> fst dst = b -> forall k g h h', hrel h h' ->
    rres hrel (unspec_go zero one addM mulM k g h bases dst inner n0) (unspec_go zero' one' addM' mulM' k g h' bases dst inner n0).
  Proof.
    intros B D. induction k as [|k IH]; intros g h h' H; cbn [unspec_go]; [exact H|]. eapply rbind; [apply (r_call _ _ r_slice); eauto|].
    intros h1 h1' H1. apply rsame. intros g' _. now apply IH.
  Qed.
  Lemma r_unspecialized h h' bases strides sh dst : hrel h h' -> Forall (fun p : ptr => fst p <> b) bases -> fst dst = b ->
    rres hrel (unspecialized zero one addM mulM h bases strides sh dst) (unspecialized zero' one' addM' mulM' h' bases strides sh dst).
  Proof.
    intros H B D. unfold unspecialized. destruct strides; [exact I|]. destruct sh; [exact I|]. apply rsame. intros g _. now apply r_unspec_go.
  Qed.

  (** the specialised loops, for any two related kernels *)
  Lemma r_2labels f f' (F : rsop f f') h h' bases d0 d1 n0 n1 dst : hrel h h' -> Forall (fun p : ptr => fst p <> b) bases -> fst dst = b ->
    rres hrel (_ <- uassert (0 <? n0) ;; _ <- uassert (0 <? n1) ;; for_each (fun i h => call_sop f h bases dst (scale i d1) d0 n0) (seq 0 n1) h)
      (_ <- uassert (0 <? n0) ;; _ <- uassert (0 <? n1) ;; for_each (fun i h => call_sop f' h bases dst (scale i d1) d0 n0) (seq 0 n1) h').
  Proof. intros H B D. do 2 (apply rsame; intros _ _). apply r_for_each; [|exact H]. intros i s s' _ E. now apply r_call. Qed.
  Lemma r_3labels f f' (F : rsop f f') h h' bases d0 d1 d2 n0 n1 n2 dst : hrel h h' -> Forall (fun p : ptr => fst p <> b) bases -> fst dst = b ->
    rres hrel (_ <- uassert (0 <? n0) ;; _ <- uassert (0 <? n1) ;; _ <- uassert (0 <? n2) ;;
        for_each (fun i h => for_each (fun j h => call_sop f h bases dst (add_lists (scale i d2) (scale j d1)) d0 n0) (seq 0 n1) h) (seq 0 n2) h)
      (_ <- uassert (0 <? n0) ;; _ <- uassert (0 <? n1) ;; _ <- uassert (0 <? n2) ;;
        for_each (fun i h => for_each (fun j h => call_sop f' h bases dst (add_lists (scale i d2) (scale j d1)) d0 n0) (seq 0 n1) h) (seq 0 n2) h').
  Proof.
    intros H B D. do 3 (apply rsame; intros _ _). apply r_for_each; [|exact H]. intros i s s' _ E. apply r_for_each; [|exact E]. intros j t t' _ E'. now apply r_call.
  Qed.
  Lemma r_run h h' bases strides sh dst : hrel h h' -> Forall (fun p : ptr => fst p <> b) bases -> fst dst = b ->
    rres hrel (run_einsum zero one addM mulM fmaM h bases strides sh dst) (run_einsum zero' one' addM' mulM' fmaM' h' bases strides sh dst).
  Proof.
    intros H B D. unfold run_einsum. pose proof (r_unspecialized h h' bases strides sh dst H B D) as DEF.
    destruct ((length bases =? 1) || (length bases =? 2)); [|exact DEF].
    destruct strides as [|d0 [|d1 [|d2 [|? ?]]]]; try exact DEF; destruct sh as [|n0 [|n1 [|n2 [|? ?]]]]; try exact DEF.
    - now apply (r_2labels _ _ r_fixed).
    - now apply (r_3labels _ _ r_fixed).
  Qed.

  (** filling with zeros *)
  Lemma r_fill_uniform n s : forall h h' p, hrel h h' -> fst p = b -> rres hrel (fill_uniform h p n s zero) (fill_uniform h' p n s zero').
  Proof.
    induction n as [|n IH]; intros h h' p H D; cbn [fill_uniform]; [exact H|]. eapply rbind; [apply hrel_st; eauto|]. intros h1 h1' H1. apply IH; auto.
  Qed.
  Lemma r_loop_ptr f f' (F : forall h h' p, hrel h h' -> fst p = b -> rres hrel (f h p) (f' h' p)) n s : forall h h' p, hrel h h' -> fst p = b ->
    rres hrel (loop_ptr f h p n s) (loop_ptr f' h' p n s).
  Proof. induction n as [|n IH]; intros h h' p H D; cbn [loop_ptr]; [exact H|]. eapply rbind; [apply F; eauto|]. intros h1 h1' H1. apply IH; auto. Qed.
  Lemma r_fill sh : forall st len h h' p, hrel h h' -> fst p = b -> rres hrel (k_fill h p sh st len zero) (k_fill h' p sh st len zero').
  Proof.
    induction sh as [|n sh IH]; intros st len h h' p H D; cbn [k_fill].
    - destruct (has_uniform_stride [] st) as [s|]; [|exact I]. destruct (s =? 1); now apply r_fill_uniform.
    - destruct (has_uniform_stride (n :: sh) st) as [s|]; [destruct (s =? 1); now apply r_fill_uniform|]. destruct st as [|s st]; [exact I|].
      apply r_loop_ptr; [|exact H|exact D]. intros h1 h1' q H1 D1. do 2 (apply rsame; intros ? _). now apply IH.
  Qed.
  Lemma r_into h h' ops subs out rst dst : hrel h h' -> Forall (fun a => a_blk a <> b) ops -> fst dst = b ->
    rres hrel (einsum_into_ptr zero one addM mulM fmaM h ops subs out rst dst) (einsum_into_ptr zero' one' addM' mulM' fmaM' h' ops subs out rst dst).
  Proof.
    intros H B D. unfold einsum_into_ptr. apply rsame. intros [[st sh] osh] _. apply rsame. intros _ _. eapply rbind; [apply r_fill; eauto|]. intros h1 h1' H1.
    apply r_run; [exact H1| |exact D]. rewrite Forall_map. exact B.
  Qed.
  Lemma r_matvec_go rs s v t cols : fst v <> b -> forall rows h h' row dst, hrel h h' -> fst row <> b -> fst dst = b ->
    rres hrel (matvec_go zero addM mulM h row rs s v t dst cols rows) (matvec_go zero' addM' mulM' h' row rs s v t dst cols rows).
  Proof.
    intros V. induction rows as [|rows IH]; intros h h' row dst H N D; cbn [matvec_go]; [exact H|]. eapply rbind; [apply r_strided_dot; eauto|].
    intros h1 h1' H1. apply IH; auto.
  Qed.
  Lemma r_bmm_go sa sb rst rs n : forall h h' a1 a2 dst, hrel h h' -> a_blk a1 <> b -> a_blk a2 <> b -> fst dst = b ->
    rres hrel (bmm_go zero one addM mulM fmaM h a1 a2 sa sb rst rs dst n) (bmm_go zero' one' addM' mulM' fmaM' h' a1 a2 sa sb rst rs dst n).
  Proof.
    induction n as [|n IH]; intros h h' a1 a2 dst H N1 N2 D; cbn [bmm_go]; [exact H|]. unfold matrix_matrix. eapply rbind; [apply r_into; auto|].
    intros h1 h1' H1. apply IH; auto.
  Qed.

  (** ** SIMD kernels *)
  Section Lanes.
    Variable L : nat.
    Hypothesis HL : L = 2 \/ L = 4.
    Hypothesis CSR : is_csr zero' one' add' mul'.
    Let fma' := fun x y z => add' (mul' x y) z.

    Lemma r_mapM {A} (P : T -> U -> Prop) (f : A -> res T) f' l : (forall x, In x l -> rres P (f x) (f' x)) -> rres (Forall2 P) (mapM f l) (mapM f' l).
    Proof.
      induction l as [|x l IH]; intros H; cbn [mapM]; [constructor|]. eapply rbind; [apply H; now left|]. intros y y' Y.
      eapply rbind; [apply IH; intros z I; apply H; now right|]. intros ys ys' YS. cbn. now constructor.
    Qed.
    Lemma r_vload_src h h' p : hrel h h' -> fst p <> b -> rres (Forall2 Sr) (vload L h (Mem p)) (vload L h' (Mem p)).
    Proof. intros H N. unfold vload. apply r_mapM. intros i _. cbn [src_add src_ld]. now apply hrel_src. Qed.
    Lemma r_vload h h' p : hrel h h' -> rres (Forall2 R) (vload L h (Mem p)) (vload L h' (Mem p)).
    Proof. intros H. unfold vload. apply r_mapM. intros i _. cbn [src_add src_ld]. now apply hrel_ld. Qed.
    Lemma r_vstore vs vs' : Forall2 R vs vs' -> forall h h' p, hrel h h' -> fst p = b -> rres hrel (vstore h p vs) (vstore h' p vs').
    Proof.
      induction 1 as [|v v' vs vs' V F IH]; intros h h' p H D; cbn [vstore]; [exact H|]. eapply rbind; [apply hrel_st; eauto|]. intros h1 h1' H1. apply IH; auto.
    Qed.
    Lemma r_map2 (P1 P2 P3 : T -> U -> Prop) f f' : (forall x x' y y', P1 x x' -> P2 y y' -> P3 (f x y) (f' x' y')) ->
      forall l l', Forall2 P1 l l' -> forall m m', Forall2 P2 m m' -> Forall2 P3 (map2 f l m) (map2 f' l' m').
    Proof. intros H. induction 1; intros m m' M; cbn [map2]; [constructor|]. destruct M; constructor; auto. Qed.
    Lemma r_vmuladd s s' : Forall2 R s s' -> forall l l' r r', Forall2 Sr l l' -> Forall2 Sr r r' ->
      Forall2 R (vmuladd fma s l r) (vmuladd fma' s' l' r').
    Proof.
      unfold vmuladd. induction 1 as [|x x' s s' X F IH]; intros l l' r r' Hl Hr; cbn [map2]; [constructor|].
      destruct Hl as [|y y' l l' [Y Y'] Hl]; [constructor|]. destruct Hr as [|z z' r r' [Z Z'] Hr]; [constructor|]. cbn [combine map2 fst snd]. constructor; [|now apply IH].
      unfold fma'. auto.
    Qed.
    Lemma r_repeat (P : T -> U -> Prop) x x' n : P x x' -> Forall2 P (repeat x n) (repeat x' n).
    Proof. intros H. induction n; constructor; auto. Qed.
    Lemma F2_SR l l' : Forall2 Sr l l' -> Forall2 R l l'.
    Proof. induction 1 as [|x y l l' [H _] F IH]; constructor; auto. Qed.

    Lemma r_sma_tail c c' : R c c' -> G c' -> forall n h h' data dst, hrel h h' -> fst data <> b -> fst dst = b ->
      rres hrel (sma_tail fma h c data dst n) (sma_tail fma' h' c' data dst n).
    Proof.
      intros C C'. induction n as [|n IH]; intros h h' data dst H N D; cbn [sma_tail]; [exact H|].
      eapply rbind; [apply hrel_src; [exact H|exact N]|]. intros x x' [X X']. eapply rbind; [apply hrel_ld, H|]. intros y y' Y.
      eapply rbind; [apply hrel_st; [exact H|exact D|unfold fma'; apply Rfma; auto]|]. intros h1 h1' H1. apply IH; auto.
    Qed.
    Lemma r_sma_one c c' : R c c' -> G c' -> forall fuel n h h' data dst, hrel h h' -> fst data <> b -> fst dst = b ->
      rres hrel (sma_one L fma fuel h c data dst n) (sma_one L fma' fuel h' c' data dst n).
    Proof.
      intros C C'. induction fuel as [|fuel IH]; intros n h h' data dst H N D; cbn [sma_one]; (destruct (L <=? n); [|now apply r_sma_tail]); [exact I|].
      eapply rbind; [apply r_vload_src; eauto|]. intros v v' V. eapply rbind; [apply r_vload; eauto|]. intros w w' W.
      eapply rbind; [apply r_vstore; [apply r_vmuladd; [exact W|apply r_repeat; now split|exact V]|exact H|exact D]|]. intros h1 h1' H1. apply IH; auto.
    Qed.
    Lemma r_sma_four c c' : R c c' -> G c' -> forall fuel n h h' data dst, hrel h h' -> fst data <> b -> fst dst = b ->
      rres hrel (sma_four L fma fuel h c data dst n) (sma_four L fma' fuel h' c' data dst n).
    Proof.
      intros C C'. induction fuel as [|fuel IH]; intros n h h' data dst H N D; cbn [sma_four]; (destruct (4 * L <=? n); [|now apply r_sma_one]); [exact I|].
      do 4 (eapply rbind; [apply r_vload_src; eauto|]; intros ? ? ?). do 4 (eapply rbind; [apply r_vload; eauto|]; intros ? ? ?). cbv zeta.
      do 4 (eapply rbind; [apply r_vstore; [apply r_vmuladd; [eassumption|apply r_repeat; now split|eassumption]|eassumption|exact D]|]; intros ? ? ?).
      apply IH; auto.
    Qed.
    Lemma r_smuladd h h' p0 p1 dst n : hrel h h' -> fst p0 <> b -> fst p1 <> b -> fst dst = b ->
      rres hrel (ssop_muladd L fma h p0 p1 dst n) (ssop_muladd L fma' h' p0 p1 dst n).
    Proof.
      intros H N0 N1 D. unfold ssop_muladd. apply rsame. intros _ _. eapply rbind; [apply hrel_src; [exact H|exact N0]|]. intros c c' [C C']. now apply r_sma_four.
    Qed.

    Lemma r_hor s s' : Forall2 R s s' -> rres R (hor_pairs add s) (hor_pairs add' s').
    Proof.
      intros H. destruct H as [|a a' ? ? A H]; [exact I|]. destruct H as [|c c' ? ? C H]; [exact I|]. destruct H as [|d d' ? ? E H]; [cbn; auto|].
      destruct H as [|e e' ? ? E' H]; [exact I|]. destruct H; [cbn; auto|exact I].
    Qed.
    Lemma r_red_tail h h' (H : hrel h h') s n : forall p acc acc', fst p <> b -> R acc acc' -> rres R (red_tail add h p n s acc) (red_tail add' h' p n s acc').
    Proof.
      induction n as [|n IH]; intros p acc acc' N A; cbn [red_tail]; [exact A|]. eapply rbind; [apply hrel_src; [exact H|exact N]|]. intros x x' [X _]. apply IH; auto.
    Qed.
    Lemma r_ssa_one h h' (H : hrel h h') : forall fuel n p s s', fst p <> b -> Forall2 R s s' -> rres R (ssa_one L add fuel h p n s) (ssa_one L add' fuel h' p n s').
    Proof.
      assert (TL : forall n p s s', fst p <> b -> Forall2 R s s' -> rres R (x <- hor_pairs add s ;; red_tail add h p n 1 x) (x <- hor_pairs add' s' ;; red_tail add' h' p n 1 x)).
      { intros n p s s' N F. eapply rbind; [apply r_hor, F|]. intros x x' X. now apply r_red_tail. }
      induction fuel as [|fuel IH]; intros n p s s' N F; cbn [ssa_one]; (destruct (L <=? n); [|now apply TL]); [exact I|].
      eapply rbind; [apply r_vload_src; eauto|]. intros v v' V. apply IH; [exact N|]. eapply r_map2; [|exact F|apply F2_SR, V]. auto.
    Qed.
    Lemma r_ssa_four h h' (H : hrel h h') : forall fuel n p s s', fst p <> b -> Forall2 R s s' -> rres R (ssa_four L add fuel h p n s) (ssa_four L add' fuel h' p n s').
    Proof.
      induction fuel as [|fuel IH]; intros n p s s' N F; cbn [ssa_four]; (destruct (4 * L <=? n); [|now apply r_ssa_one]); [exact I|].
      do 4 (eapply rbind; [apply r_vload_src; eauto|]; intros ? ? ?). apply IH; [exact N|].
      repeat (eapply r_map2 with (P1 := R) (P2 := R); [auto| |]); auto; now apply F2_SR.
    Qed.
    Lemma fold_G h h' (H : hrel h h') n : forall p acc s, fst p <> b -> (G acc \/ 0 < n) -> fold_run (fun v acc => addM' acc v) h' p n 1 acc = Ok s -> G s.
    Proof.
      induction n as [|n IH]; intros p acc s N A E; cbn [fold_run] in E; [injection E as <-; destruct A; [assumption|lia]|].
      pose proof (hrel_src h h' p H N) as X. destruct (ld h' p) as [x| |]; try discriminate. destruct (ld h p); cbn in X; try tauto. destruct X as [_ X].
      unfold addM' at 1 in E. cbn [bind] in E. apply (IH (padd p 1) (add' acc x) s N); [left; auto|exact E].
    Qed.
    Lemma r_sscaled h h' p0 p1 dst n : hrel h h' -> fst p0 <> b -> fst p1 <> b -> fst dst = b ->
      rres hrel (ssop_scaled L zero add fma h p0 p1 dst n) (ssop_scaled L zero' add' fma' h' p0 p1 dst n).
    Proof.
      intros H N0 N1 D. unfold ssop_scaled. apply rsame. intros x0 P. assert (0 < n) by (unfold uassert in P; destruct (Nat.ltb_spec 0 n); [assumption|discriminate]).
      eapply rbind; [apply hrel_src; [exact H|exact N0]|]. intros c c' [C C'].
      assert (X : rres Sr (ssa_four L add (S n) h p1 n (repeat zero L)) (ssa_four L add' (S n) h' p1 n (repeat zero' L))).
      { pose proof (r_ssa_four h h' H (S n) n p1 (repeat zero L) (repeat zero' L) N1 (r_repeat R _ _ L Rzero)) as Q.
        pose proof (ssa_four_sum L HL zero' one' add' mul' CSR h' p1 n) as Q'. 
        pose proof (fun s => fold_G h h' H n p1 zero' s N1 (or_intror H0)) as Q2. unfold addM' in Q2. rewrite <- Q' in Q2.
        destruct (ssa_four L add' (S n) h' p1 n (repeat zero' L)); destruct (ssa_four L add (S n) h p1 n (repeat zero L)); cbn in *; try tauto. split; auto. }
      eapply rbind; [exact X|]. intros s s' [E E'].
      eapply rbind; [apply hrel_ld, H|]. intros y y' Y. apply hrel_st; [exact H|exact D|]. unfold fma'. auto.
    Qed.

    Lemma r_sdp_tail h h' (H : hrel h h') n : forall p q acc acc', fst p <> b -> fst q <> b -> R acc acc' -> rres R (sdp_tail fma h p q n acc) (sdp_tail fma' h' p q n acc').
    Proof.
      induction n as [|n IH]; intros p q acc acc' N M A; cbn [sdp_tail]; [exact A|]. eapply rbind; [apply hrel_src; [exact H|exact N]|]. intros x x' [X X'].
      eapply rbind; [apply hrel_src; [exact H|exact M]|]. intros y y' [Y Y']. apply IH; auto. unfold fma'. auto.
    Qed.
    Lemma r_sdp_one h h' (H : hrel h h') : forall fuel n p q s s', fst p <> b -> fst q <> b -> Forall2 R s s' ->
      rres R (sdp_one L add fma fuel h p q n s) (sdp_one L add' fma' fuel h' p q n s').
    Proof.
      assert (TL : forall n p q s s', fst p <> b -> fst q <> b -> Forall2 R s s' -> rres R (x <- hor_pairs add s ;; sdp_tail fma h p q n x) (x <- hor_pairs add' s' ;; sdp_tail fma' h' p q n x)).
      { intros n p q s s' N M F. eapply rbind; [apply r_hor, F|]. intros x x' X. now apply r_sdp_tail. }
      induction fuel as [|fuel IH]; intros n p q s s' N M F; cbn [sdp_one]; (destruct (L <=? n); [|now apply TL]); [exact I|].
      do 2 (eapply rbind; [apply r_vload_src; eauto|]; intros ? ? ?). apply IH; auto. now apply r_vmuladd.
    Qed.
    Lemma r_sdp_four h h' (H : hrel h h') : forall fuel n p q s s', fst p <> b -> fst q <> b -> Forall2 R s s' ->
      rres R (sdp_four L add mul fma fuel h p q n s) (sdp_four L add' mul' fma' fuel h' p q n s').
    Proof.
      induction fuel as [|fuel IH]; intros n p q s s' N M F; cbn [sdp_four]; (destruct (4 * L <=? n); [|now apply r_sdp_one]); [exact I|].
      do 8 (eapply rbind; [apply r_vload_src; eauto|]; intros ? ? ?). apply IH; auto.
      assert (MM : forall l l' m m', Forall2 Sr l l' -> Forall2 Sr m m' -> Forall2 R (map2 mul l m) (map2 mul' l' m')).
      { intros l l' m m' A B. eapply r_map2; [|exact A|exact B]. intros ? ? ? ? [? ?] [? ?]. auto. }
      repeat (eapply r_map2 with (P1 := R) (P2 := R); [solve [auto]| |]); auto.
    Qed.
    Lemma r_sdot h h' p q dst n : hrel h h' -> fst p <> b -> fst q <> b -> fst dst = b ->
      rres hrel (sdot L zero add mul fma h p q dst n) (sdot L zero' add' mul' fma' h' p q dst n).
    Proof.
      intros H N M D. unfold sdot. eapply rbind; [apply r_sdp_four; auto; now apply r_repeat|]. intros s s' E. eapply rbind; [apply hrel_ld, H|]. intros y y' Y. apply hrel_st; auto.
    Qed.
    Lemma r_stwo h h' p0 s0 p1 s1 dst ds n : hrel h h' -> fst p0 <> b -> fst p1 <> b -> fst dst = b ->
      rres hrel (ssop_two L zero one add mul fma h p0 s0 p1 s1 dst ds n) (ssop_two L zero' one' add' mul' fma' h' p0 s0 p1 s1 dst ds n).
    Proof.
      intros H N0 N1 D. unfold ssop_two. assert (Fp : Forall (fun p : ptr => fst p <> b) [p0; p1]) by auto.
      assert (DEF : rres hrel (if ds =? 0 then sop_out0 zero one addM mulM h [p0; p1] [s0; s1] dst n else sop_generic one addM mulM h [p0; p1] [s0; s1] dst ds n)
        (if ds =? 0 then sop_out0 zero' one' addM' mulM' h' [p0; p1] [s0; s1] dst n else sop_generic one' addM' mulM' h' [p0; p1] [s0; s1] dst ds n)).
      { destruct (ds =? 0); [now apply r_out0|now apply r_generic]. }
      cbv zeta. destruct (_ + _ + _) as [|[|[|[|[|[|[|[|k]]]]]]]]; try exact DEF.
      - now apply r_sscaled.
      - now apply r_smuladd.
      - now apply r_sscaled.
      - now apply r_smuladd.
      - apply rsame. intros _ _. now apply r_sdot.
      - unfold sop_111. apply rsame. intros _ _. now apply r_111_go.
    Qed.
    Lemma r_sfixed : rsop (ssop_fixed L zero one add mul fma) (ssop_fixed L zero' one' add' mul' fma').
    Proof.
      intros h h' ps ss dst ds n H F D. unfold ssop_fixed.
      assert (DEF : rres hrel (if ds =? 0 then sop_out0 zero one addM mulM h ps ss dst n else sop_generic one addM mulM h ps ss dst ds n)
        (if ds =? 0 then sop_out0 zero' one' addM' mulM' h' ps ss dst n else sop_generic one' addM' mulM' h' ps ss dst ds n)).
      { destruct (ds =? 0); [now apply r_out0|now apply r_generic]. }
      destruct ps as [|p0 [|p1 [|? ?]]]; try exact DEF. destruct ss as [|s0 [|s1 [|? ?]]]; try exact DEF.
      inversion F as [|? ? F1 F2]; subst. inversion F2; subst. now apply r_stwo.
    Qed.
    Lemma r_srun h h' bases strides sh dst : hrel h h' -> Forall (fun p : ptr => fst p <> b) bases -> fst dst = b ->
      rres hrel (srun_einsum L zero one add mul fma h bases strides sh dst) (srun_einsum L zero' one' add' mul' fma' h' bases strides sh dst).
    Proof.
      intros H B D. unfold srun_einsum. pose proof (r_unspecialized h h' bases strides sh dst H B D) as DEF.
      destruct ((length bases =? 1) || (length bases =? 2)); [|exact DEF].
      destruct strides as [|d0 [|d1 [|d2 [|? ?]]]]; try exact DEF; destruct sh as [|n0 [|n1 [|n2 [|? ?]]]]; try exact DEF.
      - now apply (r_2labels _ _ r_sfixed).
      - now apply (r_3labels _ _ r_sfixed).
    Qed.
    Lemma r_sinto h h' ops subs out rst dst : hrel h h' -> Forall (fun a => a_blk a <> b) ops -> fst dst = b ->
      rres hrel (seinsum_into_ptr L zero one add mul fma h ops subs out rst dst) (seinsum_into_ptr L zero' one' add' mul' fma' h' ops subs out rst dst).
    Proof.
      intros H B D. unfold seinsum_into_ptr. apply rsame. intros [[st sh] osh] _. apply rsame. intros _ _. eapply rbind; [apply r_fill; eauto|]. intros h1 h1' H1.
      apply r_srun; [exact H1| |exact D]. rewrite Forall_map. exact B.
    Qed.
    Lemma r_sbmm_go sa sb rst rs n : forall h h' a1 a2 dst, hrel h h' -> a_blk a1 <> b -> a_blk a2 <> b -> fst dst = b ->
      rres hrel (sbmm_go L zero one add mul fma h a1 a2 sa sb rst rs dst n) (sbmm_go L zero' one' add' mul' fma' h' a1 a2 sa sb rst rs dst n).
    Proof.
      induction n as [|n IH]; intros h h' a1 a2 dst H N1 N2 D; cbn [sbmm_go]; [exact H|]. unfold smatrix_matrix. eapply rbind; [apply r_sinto; auto|].
      intros h1 h1' H1. apply IH; auto.
    Qed.
  End Lanes.
  End Block.

  (** ** Whole operations *)
  Definition cells (h : heap T) (h' : heap U) : Prop := length h = length h' /\ forall c o, rres Sr (load h c o) (load h' c o).
  Definition top (h : heap T) (x : heap T * arr) (y : heap U * arr) : Prop :=
    snd x = snd y /\ hrel (length h) h (fst x) (fst y).

  Lemma top_alloc h h' n : cells h h' -> hrel (length h) h (h ++ [Some (repeat zero n)]) (h' ++ [Some (repeat zero' n)]).
  Proof.
    intros [L C]. split; [now rewrite !app_length, L|]. split; [|intros c o N].
    - intros c o. destruct (Nat.lt_trichotomy c (length h)) as [B|[->|B]].
      + rewrite !load_app_old by lia. eapply rimp; [|apply C]. intros x y [X Y]. auto.
      + rewrite load_app_new. rewrite L, load_app_new. destruct (Nat.lt_ge_cases o n) as [O|O].
        * rewrite !nth_error_repeat by exact O. cbn. split; [exact Rzero|]. intros N. now contradiction N.
        * rewrite (proj2 (nth_error_None (repeat zero n) o)), (proj2 (nth_error_None (repeat zero' n) o)) by (now rewrite repeat_length). exact I.
      + unfold load. rewrite !(proj2 (nth_error_None _ _)) by (rewrite app_length; cbn [length]; lia). exact I.
    - destruct (Nat.lt_ge_cases c (length h)); [now apply load_app_old|]. unfold load.
      rewrite !(proj2 (nth_error_None _ _)) by (rewrite ?app_length; cbn [length]; lia). reflexivity.
  Qed.
  Lemma lt_blk (h : heap T) ops : Forall (fun a => a_blk a < length h) ops -> Forall (fun p : ptr => fst p <> length h) (map a_ptr ops).
  Proof. intros F. rewrite Forall_map. eapply Forall_impl; [|exact F]. cbn. intros; lia. Qed.

  Ltac fin := intros ? ? ?; cbn; split; [reflexivity|assumption].
  Lemma t_einsum h h' ops subs out : cells h h' -> Forall (fun a => a_blk a < length h) ops ->
    rres (top h) (nd_einsum zero one addM mulM fmaM h ops subs out) (nd_einsum zero' one' addM' mulM' fmaM' h' ops subs out).
  Proof.
    intros C F. unfold nd_einsum. apply rsame. intros [[st sh] osh] _. cbn [alloc]. rewrite <- (proj1 C).
    eapply rbind; [apply (r_run (length h) h); [now apply top_alloc|now apply lt_blk|reflexivity]|]. fin.
  Qed.
  Lemma t_dot h h' a c : cells h h' -> a_blk a < length h -> a_blk c < length h ->
    rres (top h) (nd_dot zero addM mulM h a c) (nd_dot zero' addM' mulM' h' a c).
  Proof.
    intros C A B. unfold nd_dot. destruct (a_shape a) as [|n [|? ?]]; try exact I. destruct (a_shape c) as [|m [|? ?]]; try exact I.
    destruct (a_stride a) as [|s [|? ?]]; try exact I. destruct (a_stride c) as [|t [|? ?]]; try exact I. apply rsame. intros _ _.
    cbn [nd_scalar nd_full prod fold_right repeat length Nat.eqb negb guard bind from_buffer alloc]. rewrite <- (proj1 C).
    eapply rbind; [apply (r_strided_dot (length h) h); [exact (top_alloc h h' 1 C)|cbn; lia|cbn; lia|reflexivity]|]. fin.
  Qed.
  Lemma t_matmul h h' a c : cells h h' -> a_blk a < length h -> a_blk c < length h ->
    rres (top h) (nd_matmul zero one addM mulM fmaM h a c) (nd_matmul zero' one' addM' mulM' fmaM' h' a c).
  Proof.
    intros C A B. pose proof (t_dot h h' a c C A B) as DOT. unfold nd_matmul.
    destruct (a_shape a) as [|n [|k [|? ?]]]; try exact I; (destruct (a_shape c) as [|m [|? [|? ?]]]; try exact I); try exact DOT.
    - apply rsame. intros _ _. destruct (a_stride a) as [|? [|? [|? ?]]]; try exact I. destruct (a_stride c) as [|? [|? ?]]; try exact I. cbn [alloc]. rewrite <- (proj1 C).
      eapply rbind; [apply (r_matvec_go (length h) h); [cbn; lia|now apply top_alloc|cbn; lia|reflexivity]|]. fin.
    - apply rsame. intros _ _. unfold nd_full. rewrite !repeat_length. destruct (negb _); [|exact I]. cbn [guard bind from_buffer alloc]. rewrite !repeat_length, <- (proj1 C).
      unfold matrix_matrix. eapply rbind; [apply (r_into (length h) h); [now apply top_alloc| |reflexivity]|]; [|fin]. repeat constructor; lia.
  Qed.
  Lemma slice_blk a i la : nd_slice_along a 0 i = Ok la -> a_blk la = a_blk a.
  Proof.
    unfold nd_slice_along. intros E. repeat match type of E with context [bind ?m _] => destruct m; cbn [bind] in E; try discriminate end.
    match type of E with (let '(_, _) := ?p in _) = _ => destruct p end.
    match type of E with bind ?m _ = _ => destruct m; cbn [bind] in E; try discriminate end. now inversion E.
  Qed.
  Lemma t_bmm h h' a c : cells h h' -> a_blk a < length h -> a_blk c < length h ->
    rres (top h) (nd_bmm zero one addM mulM fmaM h a c) (nd_bmm zero' one' addM' mulM' fmaM' h' a c).
  Proof.
    intros C A B. unfold nd_bmm.
    destruct (a_shape a) as [|n [|i [|? [|? ?]]]]; try exact I. destruct (a_shape c) as [|n' [|? [|k [|? ?]]]]; try exact I.
    apply rsame. intros _ _. unfold nd_full. rewrite !repeat_length. destruct (negb _); [|exact I]. cbn [guard bind from_buffer alloc]. rewrite !repeat_length, <- (proj1 C).
    apply rsame. intros la Ela. apply rsame. intros lb Elb. do 3 (apply rsame; intros ? _). apply slice_blk in Ela, Elb.
    eapply rbind; [apply (r_bmm_go (length h) h); [now apply top_alloc|lia|lia|reflexivity]|]. fin.
  Qed.
  Section TopLanes.
    Variable L : nat.
    Hypothesis HL : L = 2 \/ L = 4.
    Hypothesis CSR : is_csr zero' one' add' mul'.
    Let fma' := fun x y z => add' (mul' x y) z.
    Lemma t_seinsum h h' ops subs out : cells h h' -> Forall (fun a => a_blk a < length h) ops ->
      rres (top h) (snd_einsum L zero one add mul fma h ops subs out) (snd_einsum L zero' one' add' mul' fma' h' ops subs out).
    Proof.
      intros C F. unfold snd_einsum. apply rsame. intros [[st sh] osh] _. cbn [alloc]. rewrite <- (proj1 C).
      eapply rbind; [apply (r_srun (length h) h L HL CSR); [now apply top_alloc|now apply lt_blk|reflexivity]|]. fin.
    Qed.
    Lemma t_smatmul h h' a c : cells h h' -> a_blk a < length h -> a_blk c < length h ->
      rres (top h) (snd_matmul L zero one add mul fma h a c) (snd_matmul L zero' one' add' mul' fma' h' a c).
    Proof.
      intros C A B. pose proof (t_matmul h h' a c C A B) as DEF. unfold snd_matmul.
      destruct (a_shape a) as [|n [|k [|? ?]]]; try exact DEF. destruct (a_shape c) as [|m [|? [|? ?]]]; try exact DEF.
      apply rsame. intros _ _. unfold nd_full. rewrite !repeat_length. destruct (negb _); [|exact I]. cbn [guard bind from_buffer alloc]. rewrite !repeat_length, <- (proj1 C).
      unfold smatrix_matrix. eapply rbind; [apply (r_sinto (length h) h L HL CSR); [now apply top_alloc| |reflexivity]|]; [|fin]. repeat constructor; lia.
    Qed.
    Lemma t_sbmm h h' a c : cells h h' -> a_blk a < length h -> a_blk c < length h ->
      rres (top h) (snd_bmm L zero one add mul fma h a c) (snd_bmm L zero' one' add' mul' fma' h' a c).
    Proof.
      intros C A B. unfold snd_bmm.
      destruct (a_shape a) as [|n [|i [|? [|? ?]]]]; try exact I. destruct (a_shape c) as [|n' [|? [|k [|? ?]]]]; try exact I.
      apply rsame. intros _ _. unfold nd_full. rewrite !repeat_length. destruct (negb _); [|exact I]. cbn [guard bind from_buffer alloc]. rewrite !repeat_length, <- (proj1 C).
      apply rsame. intros la Ela. apply rsame. intros lb Elb. do 3 (apply rsame; intros ? _). apply slice_blk in Ela, Elb.
      eapply rbind; [apply (r_sbmm_go (length h) h L HL CSR); [now apply top_alloc|lia|lia|reflexivity]|]. fin.
    Qed.
  End TopLanes.

  Lemma transfer h h' sh val' x y : cells h h' -> 0 < prod sh -> rres (top h) x y ->
    (exists h2 r, y = Ok (h2, r) /\ fresh_result h' h2 r sh (fun idx => Ok (val' idx))) ->
    exists h2 r val, x = Ok (h2, r) /\ fresh_result h h2 r sh (fun idx => Ok (val idx)) /\ forall idx, in_range idx sh -> R (val idx) (val' idx).
  Proof.
    intros C P X (h2' & r' & -> & (GR & ER & _ & _ & _ & LV & V)). destruct x as [[h2 r]| |]; cbn in X; try tauto. destruct X as [E (L & H & FR)]. cbn [fst snd] in *. subst r.
    pose proof (fun idx I => V idx I) as V'. unfold get in V'. rewrite ER in V'. cbn [fresh_arr a_blk a_off a_stride plus] in V'. 
    assert (W : forall idx, in_range idx sh -> exists z, load h2 (length h) (rank idx sh) = Ok z /\ R z (val' idx)).
    { intros idx I. specialize (V' idx I). rewrite stride_from_shape_rm, <- rank_dot in V' by exact I. rewrite <- (proj1 C) in V'. pose proof (H (length h) (rank idx sh)) as Q. rewrite V' in Q.
      destruct (load h2 (length h) (rank idx sh)) as [z| |]; cbn in Q; try tauto. exists z. tauto. }
    set (val := fun idx => match load h2 (length h) (rank idx sh) with Ok z => z | _ => zero end).
    exists h2, r', val. split; [reflexivity|]. split.
    - rewrite ER, <- (proj1 C). apply fresh_result_written; auto.
      + rewrite L. rewrite (proj1 GR). now rewrite (proj1 C).
      + intros c o B. apply FR. lia.
      + intros idx I. unfold val. destruct (W idx I) as (z & -> & _). reflexivity.
      + pose proof (H (length h) (prod sh)) as Q. destruct LV as (l & EL & LL).
        assert (Z : load h2' (length h) (prod sh) = Oob) by (rewrite (proj1 C); unfold load; rewrite EL, <- LL; now rewrite (proj2 (nth_error_None l (length l))) by lia).
        rewrite Z in Q. destruct (load h2 (length h) (prod sh)); cbn in Q; tauto.
    - intros idx I. unfold val. destruct (W idx I) as (z & -> & Z). exact Z.
  Qed.
End Param.
