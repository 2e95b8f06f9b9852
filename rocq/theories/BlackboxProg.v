(** BlackboxProg.v: programs run in the same way over any two element types whose values and
    operations are related.  No function of the library is modelled here. *)
From Coq Require Import List Arith Lia Bool ZArith.
From Verif Require Import Base Layout Views Kernels Access Reduce Einsum Nested Prog PropsEinsum Param Blackbox.
Import ListNotations.
Open Scope res_scope.

Section Prog.
  Context {T U : Type}.
  Variable R : T -> U -> Prop.
  Variables (zero one : T) (add mul : T -> T -> T) (eqb : T -> T -> bool).
  Variables (zero' one' : U) (add' mul' : U -> U -> U) (eqb' : U -> U -> bool).

  (** functions that give related results, or both panic, on related arguments *)
  Definition fr1 (g : T -> res T) (g' : U -> res U) : Prop := forall x x', R x x' -> rres R (g x) (g' x').
  Definition fr2 (f : T -> T -> res T) (f' : U -> U -> res U) : Prop := forall x x' y y', R x x' -> R y y' -> rres R (f x y) (f' x' y').

  (** the same command with related values and functions *)
  Inductive cr : @cmd T -> @cmd U -> Prop :=
  | cr_new ks d d' : nr R d d' -> cr (CNew ks d) (CNew ks d')
  | cr_full x x' sh : R x x' -> cr (CFull x sh) (CFull x' sh)
  | cr_view o k : cr (CView o k) (CView o k)
  | cr_binary f f' k1 k2 : fr2 f f' -> cr (CBinary f k1 k2) (CBinary f' k1 k2)
  | cr_scalar f f' k c c' : fr2 f f' -> R c c' -> cr (CScalarOp f k c) (CScalarOp f' k c')
  | cr_unary g g' k : fr1 g g' -> cr (CUnary g k) (CUnary g' k)
  | cr_assign f f' k1 k2 : fr2 f f' -> cr (CAssign f k1 k2) (CAssign f' k1 k2)
  | cr_assign_scalar f f' k c c' : fr2 f f' -> R c c' -> cr (CAssignScalar f k c) (CAssignScalar f' k c')
  | cr_fill k v v' : R v v' -> cr (CFill k v) (CFill k v')
  | cr_index k idx : cr (CIndex k idx) (CIndex k idx)
  | cr_index_set k idx v v' : R v v' -> cr (CIndexSet k idx v) (CIndexSet k idx v')
  | cr_value k : cr (CValue k) (CValue k)
  | cr_data_slice k : cr (CDataSlice k) (CDataSlice k)
  | cr_flatiter k : cr (CFlatiter k) (CFlatiter k)
  | cr_equal k1 k2 : (forall x x' y y', R x x' -> R y y' -> eqb x y = eqb' x' y') -> cr (CEqual k1 k2) (CEqual k1 k2)
  | cr_clone k : cr (CClone k) (CClone k)
  | cr_flatten k : cr (CFlatten k) (CFlatten k)
  | cr_reduce g g' d d' k : fr2 g g' -> R d d' -> cr (CReduce g d k) (CReduce g' d' k)
  | cr_reduce_along g g' d d' k axes : fr2 g g' -> R d d' -> cr (CReduceAlong g d k axes) (CReduceAlong g' d' k axes)
  | cr_trace g g' k o i j : fr2 g g' -> cr (CTrace g k o i j) (CTrace g' k o i j)
  | cr_dot k1 k2 : cr (CDot k1 k2) (CDot k1 k2)
  | cr_matmul k1 k2 : cr (CMatmul k1 k2) (CMatmul k1 k2)
  | cr_bmm k1 k2 : cr (CBmm k1 k2) (CBmm k1 k2)
  | cr_einsum ks subs out : cr (CEinsum ks subs out) (CEinsum ks subs out).

  Inductive outr : @obs T -> @obs U -> Prop :=
  | outr_vals l l' : Forall2 R l l' -> outr (OVals l) (OVals l')
  | outr_bool b : outr (OBool b) (OBool b).

  (** related memories, the same arrays, related results shown *)
  Definition str (s : @state T) (s' : @state U) : Prop := hr R (s_heap s) (s_heap s') /\ s_env s = s_env s' /\ Forall2 outr (s_out s) (s_out s').

  Hypothesis Z : R zero zero'.
  Hypothesis O : R one one'.
  Hypothesis A : forall x x' y y', R x x' -> R y y' -> R (add x y) (add' x' y').
  Hypothesis M : forall x x' y y', R x x' -> R y y' -> R (mul x y) (mul' x' y').

  Lemma str_made s s' p p' : str s s' -> rres (ar R) p p' -> rres str (made s p) (made s' p').
  Proof. intros (H1 & H2 & H3) P. unfold made. eapply rbind; [exact P|]. intros [h a] [h' a'] [E1 E2]. cbn [fst snd] in *. subst a'. split; [|split]; cbn; auto. now rewrite H2. Qed.
  Lemma str_stored s s' p p' : str s s' -> rres (hr R) p p' -> rres str (stored s p) (stored s' p').
  Proof. intros (H1 & H2 & H3) P. unfold stored. eapply rbind; [exact P|]. intros h h' E. split; [|split]; cbn; auto. Qed.
  Lemma str_read {B C} (Q : B -> C -> Prop) (w : B -> obs) (w' : C -> obs) s s' p p' :
    (forall x y, Q x y -> outr (w x) (w' y)) -> str s s' -> rres Q p p' -> rres str (only_read w s p) (only_read w' s' p').
  Proof. intros W (H1 & H2 & H3) P. unfold only_read. eapply rbind; [exact P|]. intros x y E. split; [|split]; cbn; auto. apply Forall2_app; auto. Qed.
  Lemma str_nth s s' k : str s s' -> nth_arr s k = nth_arr s' k.
  Proof. intros (_ & E & _). unfold nth_arr. now rewrite E. Qed.

  Lemma exec_rel c c' s s' : cr c c' -> str s s' -> rres str (exec zero one add mul eqb c s) (exec zero' one' add' mul' eqb' c' s').
  Proof.
    intros C S. pose proof S as (H & E & Q).
    assert (AM : fr2 (okadd add) (okadd add')) by (intros x x' y y' X Y; cbn; auto).
    assert (MM : fr2 (okadd mul) (okadd mul')) by (intros x x' y y' X Y; cbn; auto).
    assert (FM : forall x x' y y' z z', R x x' -> R y y' -> R z z' -> rres R (okfma add mul x y z) (okfma add' mul' x' y' z')) by (intros; cbn; auto).
    assert (V1 : forall x y, R x y -> outr (OVals [x]) (OVals [y])) by (intros; constructor; auto).
    assert (V2 : forall x y, Forall2 R x y -> outr (OVals x) (OVals y)) by (intros; constructor; auto).
    destruct C; unfold exec; rewrite ?(str_nth s s' _ S).
    - apply str_made; [exact S|]. now apply bb_nd_new.
    - apply str_made; [exact S|]. now apply bb_nd_full.
    - apply rsame; intros a _. apply rsame; intros [r|] _; [|exact S]. split; [|split]; cbn; auto. now rewrite E.
    - apply rsame; intros a _. apply rsame; intros b _. apply str_made; [exact S|]. now apply bb_nd_binary.
    - apply rsame; intros a _. apply str_made; [exact S|]. now apply bb_nd_scalar_op.
    - apply rsame; intros a _. apply str_made; [exact S|]. now apply bb_nd_unary.
    - apply rsame; intros a _. apply rsame; intros b _. apply str_stored; [exact S|]. now apply bb_nd_assign.
    - apply rsame; intros a _. apply str_stored; [exact S|]. now apply bb_nd_assign_scalar.
    - apply rsame; intros a _. apply str_stored; [exact S|]. now apply bb_nd_fill.
    - apply rsame; intros a _. apply (str_read R); [exact V1|exact S|]. now apply bb_nd_index.
    - apply rsame; intros a _. apply str_stored; [exact S|]. now apply bb_nd_index_set.
    - apply rsame; intros a _. apply (str_read R); [exact V1|exact S|]. now apply bb_nd_value.
    - apply rsame; intros a _. apply (str_read (Forall2 R)); [exact V2|exact S|]. now apply bb_nd_data_slice.
    - apply rsame; intros a _. apply (str_read (Forall2 R)); [exact V2|exact S|]. now apply bb_nd_flatiter.
    - apply rsame; intros a _. apply rsame; intros b _. apply (str_read eq); [intros x y ->; constructor|exact S|]. now apply (bb_nd_eq R).
    - apply rsame; intros a _. apply str_made; [exact S|]. now apply bb_nd_clone.
    - apply rsame; intros a _. apply str_made; [exact S|]. now apply bb_nd_flatten.
    - apply rsame; intros a _. apply str_made; [exact S|]. now apply bb_nd_reduce.
    - apply rsame; intros a _. apply str_made; [exact S|]. now apply bb_nd_reduce_along.
    - apply rsame; intros a _. apply str_made; [exact S|]. now apply bb_nd_trace.
    - apply rsame; intros a _. apply rsame; intros b _. apply str_made; [exact S|]. now apply bb_nd_dot.
    - apply rsame; intros a _. apply rsame; intros b _. apply str_made; [exact S|]. now apply bb_nd_matmul.
    - apply rsame; intros a _. apply rsame; intros b _. apply str_made; [exact S|]. now apply bb_nd_bmm.
    - assert (L : mapM (nth_arr s) ks = mapM (nth_arr s') ks). { induction ks as [|k ks IH]; cbn [mapM]; [reflexivity|]. now rewrite (str_nth s s' _ S), IH. }
      rewrite L. apply rsame; intros l _. apply str_made; [exact S|]. now apply bb_nd_einsum.
  Qed.
  Theorem exec_all_rel cs cs' : Forall2 cr cs cs' -> forall s s', str s s' ->
    rres str (exec_all zero one add mul eqb cs s) (exec_all zero' one' add' mul' eqb' cs' s').
  Proof.
    induction 1 as [|c c' cs cs' C F IH]; intros s s' S; cbn [exec_all]; [exact S|].
    eapply rbind; [apply exec_rel; eassumption|]. intros t t' E. now apply IH.
  Qed.
End Prog.
