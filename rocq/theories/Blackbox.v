(** Blackbox.v: every modelled operation runs in the same way over any two element types whose
    values and operations are related.  No function of the library is modelled here. *)
From Coq Require Import List Arith Lia Bool ZArith.
From Verif Require Import Base Layout Views Kernels Access Reduce Einsum Nested Prog Param.
Import ListNotations.
Open Scope res_scope.

(** ** Related values *)
Section Rel.
  Context {T U : Type}.
  Variable R : T -> U -> Prop.
  Definition orel {A B} (P : A -> B -> Prop) (x : option A) (y : option B) : Prop :=
    match x, y with Some a, Some b => P a b | None, None => True | _, _ => False end.
  (** the same blocks are live, of the same lengths, with related cells *)
  Definition hr (h : heap T) (h' : heap U) : Prop := Forall2 (orel (Forall2 R)) h h'.
  (** related memories and the same array record *)
  Definition ar (r : heap T * arr) (r' : heap U * arr) : Prop := hr (fst r) (fst r') /\ snd r = snd r'.
  Inductive sr : src T -> src U -> Prop :=
  | sr_mem p : sr (Mem p) (Mem p)
  | sr_val v v' : R v v' -> sr (Val v) (Val v').
  Inductive nr : nest T -> nest U -> Prop :=
  | nr_leaf x x' : R x x' -> nr (Leaf x) (Leaf x')
  | nr_node l l' : Forall2 nr l l' -> nr (Node l) (Node l').

  Lemma F2_nth {A B} (P : A -> B -> Prop) l l' : Forall2 P l l' -> forall i, orel P (nth_error l i) (nth_error l' i).
  Proof. induction 1; intros [|i]; cbn [nth_error orel]; auto. Qed.
  Lemma F2_upd {A B} (P : A -> B -> Prop) l l' : Forall2 P l l' -> forall i v v', P v v' -> orel (Forall2 P) (upd l i v) (upd l' i v').
  Proof.
    induction 1 as [|x y l l' H F IH]; intros [|i] v v' V; cbn [upd orel]; auto.
    specialize (IH i v v' V). destruct (upd l i v), (upd l' i v'); cbn [orel] in *; auto.
  Qed.
  Lemma F2_repeat {A B} (P : A -> B -> Prop) x y n : P x y -> Forall2 P (repeat x n) (repeat y n).
  Proof. intros H. induction n; cbn [repeat]; auto. Qed.
  Lemma F2_len {A B} (P : A -> B -> Prop) l l' : Forall2 P l l' -> length l = length l'.
  Proof. induction 1; cbn [length]; auto. Qed.
  Lemma r_mapM {A B C D} (P : A -> B -> Prop) (Q : C -> D -> Prop) (f : A -> res C) (g : B -> res D) l l' :
    Forall2 P l l' -> (forall x y, P x y -> rres Q (f x) (g y)) -> rres (Forall2 Q) (mapM f l) (mapM g l').
  Proof.
    intros H F. induction H; cbn [mapM]; [constructor|].
    eapply rbind; [apply F; eassumption|]. intros u v UV. eapply rbind; [exact IHForall2|]. intros us vs US. cbn [rres]. auto.
  Qed.
  Lemma r_mapM_same {A C D} (Q : C -> D -> Prop) (f : A -> res C) (g : A -> res D) l :
    (forall x, rres Q (f x) (g x)) -> rres (Forall2 Q) (mapM f l) (mapM g l).
  Proof.
    intros F. induction l as [|x l IH]; cbn [mapM]; [constructor|].
    eapply rbind; [apply F|]. intros u v UV. eapply rbind; [exact IH|]. intros us vs US. cbn [rres]. auto.
  Qed.

  (** ** Memory *)
  Lemma bb_load h h' b o : hr h h' -> rres R (load h b o) (load h' b o).
  Proof.
    intros H. unfold load. pose proof (F2_nth _ _ _ H b) as E.
    destruct (nth_error h b) as [[l|]|], (nth_error h' b) as [[l'|]|]; cbn [orel] in E; try tauto; try exact I.
    pose proof (F2_nth _ _ _ E o) as F. destruct (nth_error l o), (nth_error l' o); cbn [orel rres] in *; auto.
  Qed.
  Lemma bb_store h h' b o v v' : hr h h' -> R v v' -> rres hr (store h b o v) (store h' b o v').
  Proof.
    intros H V. unfold store. pose proof (F2_nth _ _ _ H b) as E.
    destruct (nth_error h b) as [[l|]|], (nth_error h' b) as [[l'|]|]; cbn [orel] in E; try tauto; try exact I.
    pose proof (F2_upd _ _ _ E o v v' V) as F. destruct (upd l o v) as [k|], (upd l' o v') as [k'|]; cbn [orel] in F; try tauto; try exact I.
    pose proof (F2_upd _ _ _ H b (Some k) (Some k') F) as G. destruct (upd h b _), (upd h' b _); cbn [orel rres] in *; auto.
  Qed.
  Lemma bb_ld h h' p : hr h h' -> rres R (ld h p) (ld h' p).
  Proof. apply bb_load. Qed.
  Lemma bb_st h h' p v v' : hr h h' -> R v v' -> rres hr (st h p v) (st h' p v').
  Proof. apply bb_store. Qed.
  Lemma bb_src h h' s s' : hr h h' -> sr s s' -> rres R (src_ld h s) (src_ld h' s').
  Proof. intros H []; cbn [src_ld rres]; auto using bb_ld. Qed.
  Lemma sr_add s s' n : sr s s' -> sr (src_add s n) (src_add s' n).
  Proof. intros []; cbn [src_add]; constructor; auto. Qed.
  Lemma hr_alloc h h' l l' : hr h h' -> Forall2 R l l' -> hr (h ++ [Some l]) (h' ++ [Some l']).
  Proof. intros H L. apply Forall2_app; [exact H|]. repeat constructor. exact L. Qed.
  Lemma hr_len h h' : hr h h' -> length h = length h'.
  Proof. apply F2_len. Qed.
  Lemma ar_buffer h h' sh l l' : hr h h' -> Forall2 R l l' -> ar (from_buffer h sh l) (from_buffer h' sh l').
  Proof. intros H L. unfold from_buffer, alloc. cbn [fst snd]. split; [now apply hr_alloc|]. cbn [snd]. now rewrite (F2_len _ _ _ L), (hr_len _ _ H). Qed.
End Rel.

Create HintDb bb.
#[export] Hint Resolve bb_ld bb_st bb_src sr_add sr_mem sr_val hr_alloc ar_buffer F2_repeat : bb.
#[export] Hint Constructors Forall2 : bb.

Ltac bb := repeat first
  [ progress cbv zeta
  | match goal with |- True => exact I | |- rres _ Panic Panic => exact I | |- rres _ Oob Oob => exact I | |- rres _ (Ok _) (Ok _) => cbn [rres] end
  | match goal with |- rres _ (bind ?m _) (bind ?m _) => apply rsame; intros ? _ end
  | match goal with |- rres _ (bind _ _) (bind _ _) => eapply rbind; [solve [eauto 4 with bb]|intros ? ? ?] end
  | match goal with |- rres _ (match ?x with _ => _ end) (match ?x with _ => _ end) => destruct x end
  | solve [eauto 4 with bb] ].

(** ** Elementwise operations *)
Section Binary.
  Context {T U : Type}.
  Variable R : T -> U -> Prop.
  Variables (f : T -> T -> res T) (f' : U -> U -> res U).
  Hypothesis F : forall x x' y y', R x x' -> R y y' -> rres R (f x y) (f' x' y').
  Hint Resolve F : bb.
  Lemma bb_nn n : forall h h' l l' ls r r' rs d, hr R h h' -> sr R l l' -> sr R r r' -> rres (hr R) (k_nn f h l ls r rs d n) (k_nn f' h' l' ls r' rs d n).
  Proof. induction n; intros; cbn [k_nn]; bb. Qed.
  Lemma bb_xn_go is : forall n h h' l l' r r' rs d, hr R h h' -> sr R l l' -> sr R r r' -> rres (hr R) (k_xn_go f h l is r rs d n) (k_xn_go f' h' l' is r' rs d n).
  Proof. induction is; intros n h h' l l' r r' rs d ? ? ?; destruct n; cbn [k_xn_go]; bb. Qed.
  Lemma bb_nx_go is : forall n h h' l l' ls r r' d, hr R h h' -> sr R l l' -> sr R r r' -> rres (hr R) (k_nx_go f h l ls r is d n) (k_nx_go f' h' l' ls r' is d n).
  Proof. induction is; intros n h h' l l' ls r r' d ? ? ?; destruct n; cbn [k_nx_go]; bb. Qed.
  Lemma bb_xx_go is : forall h h' l l' r r' js d, hr R h h' -> sr R l l' -> sr R r r' -> rres (hr R) (k_xx_go f h l is r js d) (k_xx_go f' h' l' is r' js d).
  Proof. induction is; intros; cbn [k_xx_go]; bb. Qed.
  Hint Resolve bb_nn bb_xn_go bb_nx_go bb_xx_go : bb.
  Lemma bb_scalar h h' l lsh lst c c' d : hr R h h' -> R c c' -> rres (hr R) (k_scalar f h l lsh lst c d) (k_scalar f' h' l lsh lst c' d).
  Proof. intros. unfold k_scalar, k_xn. bb. Qed.
  Lemma bb_binary h h' l lst r rst d sh : hr R h h' -> rres (hr R) (k_binary f h l lst r rst d sh) (k_binary f' h' l lst r rst d sh).
  Proof. intros. unfold k_binary, k_xn, k_nx, k_xx. bb. Qed.
  Hint Resolve bb_scalar bb_binary : bb.
  Lemma bb_nd_binary z z' h h' a b : hr R h h' -> R z z' -> rres (ar R) (nd_binary f z h a b) (nd_binary f' z' h' a b).
  Proof. intros H Z. unfold nd_binary. cbn [alloc]. rewrite <- (hr_len R _ _ H). bb. split; auto. Qed.
  Lemma bb_nd_scalar_op z z' h h' a c c' : hr R h h' -> R z z' -> R c c' -> rres (ar R) (nd_scalar_op f z h a c) (nd_scalar_op f' z' h' a c').
  Proof. intros H Z C. unfold nd_scalar_op. cbn [alloc]. rewrite <- (hr_len R _ _ H). bb. split; auto. Qed.
  Lemma bb_nd_assign h h' a b : hr R h h' -> rres (hr R) (nd_assign f h a b) (nd_assign f' h' a b).
  Proof. intros. unfold nd_assign. bb. Qed.
  Lemma bb_nd_assign_scalar h h' a c c' : hr R h h' -> R c c' -> rres (hr R) (nd_assign_scalar f h a c) (nd_assign_scalar f' h' a c').
  Proof. intros. unfold nd_assign_scalar. bb. Qed.
  (** reductions *)
  Lemma bb_fold_run n : forall h h' p s acc acc', hr R h h' -> R acc acc' -> rres R (fold_run f h p n s acc) (fold_run f' h' p n s acc').
  Proof. induction n; intros; cbn [fold_run]; bb. Qed.
  Lemma bb_fold_idx is : forall h h' p acc acc', hr R h h' -> R acc acc' -> rres R (fold_idx f h p is acc) (fold_idx f' h' p is acc').
  Proof. induction is; intros; cbn [fold_idx]; bb. Qed.
  Hint Resolve bb_fold_run bb_fold_idx : bb.
  Lemma bb_nd_full h h' x x' sh : hr R h h' -> R x x' -> rres (ar R) (nd_full h x sh) (nd_full h' x' sh).
  Proof. intros. unfold nd_full. rewrite !repeat_length. bb. Qed.
  Lemma bb_nd_scalar h h' x x' : hr R h h' -> R x x' -> rres (ar R) (nd_scalar h x) (nd_scalar h' x').
  Proof. intros. unfold nd_scalar. now apply bb_nd_full. Qed.
  Hint Resolve bb_nd_scalar : bb.
  Lemma bb_nd_reduce d d' h h' a : hr R h h' -> R d d' -> rres (ar R) (nd_reduce f d h a) (nd_reduce f' d' h' a).
  Proof. intros. unfold nd_reduce. apply rbind with (P := R); [unfold k_reduce; bb|bb]. Qed.
  Lemma bb_along_go is : forall h h' p js out out', hr R h h' -> Forall2 R out out' -> rres (Forall2 R) (along_go f h p is js out) (along_go f' h' p is js out').
  Proof.
    induction is as [|i is IH]; intros h h' p js out out' H O; cbn [along_go]; [exact O|]. eapply rbind; [eauto with bb|]. intros x x' X.
    destruct js as [|j js]; [exact I|]. pose proof (F2_nth _ _ _ O j) as E. destruct (nth_error out j) as [v|], (nth_error out' j) as [v'|]; cbn [orel] in E; try tauto; try exact I.
    eapply rbind; [eauto with bb|]. intros w w' W. pose proof (F2_upd _ _ _ O j w w' W) as G. destruct (upd out j w), (upd out' j w'); cbn [orel] in G; try tauto; try exact I. eauto.
  Qed.
  Hint Resolve bb_along_go : bb.
  Lemma bb_nd_reduce_along d d' h h' a axes : hr R h h' -> R d d' -> rres (ar R) (nd_reduce_along f d h a axes) (nd_reduce_along f' d' h' a axes).
  Proof. intros. unfold nd_reduce_along. bb. Qed.
End Binary.

Section Unary.
  Context {T U : Type}.
  Variable R : T -> U -> Prop.
  Variables (g : T -> res T) (g' : U -> res U).
  Hypothesis F : forall x x', R x x' -> rres R (g x) (g' x').
  Hint Resolve F : bb.
  Lemma bb_un n : forall h h' p s d, hr R h h' -> rres (hr R) (k_un g h p s d n) (k_un g' h' p s d n).
  Proof. induction n; intros; cbn [k_un]; bb. Qed.
  Lemma bb_ux_go is : forall h h' p d, hr R h h' -> rres (hr R) (k_ux_go g h p is d) (k_ux_go g' h' p is d).
  Proof. induction is; intros; cbn [k_ux_go]; bb. Qed.
  Hint Resolve bb_un bb_ux_go : bb.
  Lemma bb_unary h h' p sh str d : hr R h h' -> rres (hr R) (k_unary g h p sh str d) (k_unary g' h' p sh str d).
  Proof. intros. unfold k_unary. bb. Qed.
  Hint Resolve bb_unary : bb.
  Lemma bb_nd_unary z z' h h' a : hr R h h' -> R z z' -> rres (ar R) (nd_unary g z h a) (nd_unary g' z' h' a).
  Proof. intros H Z. unfold nd_unary. cbn [alloc]. rewrite <- (hr_len R _ _ H). bb. split; auto. Qed.
End Unary.

(** ** Access *)
Section Access.
  Context {T U : Type}.
  Variable R : T -> U -> Prop.
  Lemma bb_nd_index h h' a idx : hr R h h' -> rres R (nd_index h a idx) (nd_index h' a idx).
  Proof. intros. unfold nd_index. bb. Qed.
  Lemma bb_nd_index_set h h' a idx v v' : hr R h h' -> R v v' -> rres (hr R) (nd_index_set h a idx v) (nd_index_set h' a idx v').
  Proof. intros. unfold nd_index_set. bb. Qed.
  Lemma bb_nd_value h h' a : hr R h h' -> rres R (nd_value h a) (nd_value h' a).
  Proof. intros. unfold nd_value. bb. Qed.
  Lemma bb_read_run h h' p n : hr R h h' -> rres (Forall2 R) (read_run h p n) (read_run h' p n).
  Proof. intros. unfold read_run. apply r_mapM_same. intros. bb. Qed.
  Hint Resolve bb_read_run : bb.
  Lemma bb_nd_flatiter h h' a : hr R h h' -> rres (Forall2 R) (nd_flatiter h a) (nd_flatiter h' a).
  Proof. intros. unfold nd_flatiter. bb. apply r_mapM_same. intros. bb. Qed.
  Lemma bb_nd_data_slice h h' a : hr R h h' -> rres (Forall2 R) (nd_data_slice h a) (nd_data_slice h' a).
  Proof. intros. unfold nd_data_slice. bb. Qed.
  Lemma bb_copy_runs is : forall h h' p n, hr R h h' -> rres (Forall2 R) (copy_runs h p is n) (copy_runs h' p is n).
  Proof. induction is; intros; cbn [copy_runs]; bb. now apply Forall2_app. Qed.
  Hint Resolve bb_copy_runs : bb.
  Lemma bb_clone_data h h' a : hr R h h' -> rres (Forall2 R) (clone_data h a) (clone_data h' a).
  Proof.
    intros H. unfold clone_data, clone_strided. destruct (f_contig _); [bb|]. destruct (collapse _ _) as [sh str]. destruct str as [|s str]; [exact I|].
    cbv zeta. apply rbind with (P := Forall2 R).
    - bb.
    - intros x y E. rewrite (F2_len _ _ _ E). destruct (_ =? _); cbn [rres]; auto.
  Qed.
  Hint Resolve bb_clone_data : bb.
  Lemma bb_nd_clone h h' a : hr R h h' -> rres (ar R) (nd_clone h a) (nd_clone h' a).
  Proof. intros. unfold nd_clone. bb. Qed.
  Lemma bb_nd_flatten h h' a : hr R h h' -> rres (ar R) (nd_flatten h a) (nd_flatten h' a).
  Proof. intros. unfold nd_flatten. bb. Qed.
  Lemma bb_nd_eq (eqb : T -> T -> bool) (eqb' : U -> U -> bool) h h' a b : (forall x x' y y', R x x' -> R y y' -> eqb x y = eqb' x' y') ->
    hr R h h' -> rres eq (nd_eq eqb h a b) (nd_eq eqb' h' a b).
  Proof.
    intros E H. unfold nd_eq. assert (Z : forall is js p q, rres eq (zip_all eqb h p is q js) (zip_all eqb' h' p is q js)).
    { induction is as [|i is IH]; intros js p q; cbn [zip_all]; [reflexivity|]. destruct js as [|j js]; [reflexivity|].
      eapply rbind; [eauto with bb|]. intros x x' X. eapply rbind; [eauto with bb|]. intros y y' Y. rewrite (E x x' y y' X Y). destruct (eqb' x' y'); [apply IH|reflexivity]. }
    bb.
  Qed.
  Lemma bb_fill_uniform n : forall h h' p s v v', hr R h h' -> R v v' -> rres (hr R) (fill_uniform h p n s v) (fill_uniform h' p n s v').
  Proof. induction n; intros; cbn [fill_uniform]; bb. Qed.
  Hint Resolve bb_fill_uniform : bb.
  Lemma bb_loop_ptr b b' n : (forall h h' p, hr R h h' -> rres (hr R) (b h p) (b' h' p)) -> forall h h' p s, hr R h h' -> rres (hr R) (loop_ptr b h p n s) (loop_ptr b' h' p n s).
  Proof. intros B. induction n; intros; cbn [loop_ptr]; bb. Qed.
  Lemma bb_fill sh : forall h h' p str len v v', hr R h h' -> R v v' -> rres (hr R) (k_fill h p sh str len v) (k_fill h' p sh str len v').
  Proof.
    induction sh as [|n sh IH]; intros h h' p str len v v' H V; cbn [k_fill]; (destruct (has_uniform_stride _ _) as [s|]; [destruct (s =? 1); bb|]); [exact I|].
    destruct str as [|s str]; [exact I|]. apply bb_loop_ptr; [|exact H]. intros. bb.
  Qed.
  Lemma bb_nd_fill h h' a v v' : hr R h h' -> R v v' -> rres (hr R) (nd_fill h a v) (nd_fill h' a v').
  Proof. apply bb_fill. Qed.

  (** nested data *)
  Lemma nr_children d d' : nr R d d' -> Forall2 (nr R) (children d) (children d').
  Proof. intros []; cbn [children]; auto. Qed.
  Lemma nr_shape ks : forall d d', nr R d d' -> nest_shape ks d = nest_shape ks d'.
  Proof.
    induction ks as [|k ks IH]; intros d d' H; [reflexivity|]. cbn [nest_shape]. pose proof (nr_children _ _ H) as C. rewrite (F2_len _ _ _ C). destruct ks as [|k2 ks]; [reflexivity|].
    unfold vget. pose proof (F2_nth _ _ _ C 0) as E. destruct (nth_error (children d) 0), (nth_error (children d') 0); cbn [orel] in E; try tauto. cbn [bind]. now rewrite (IH _ _ E).
  Qed.
  Lemma nr_homogenous ks d d' : nr R d d' -> check_homogenous ks d = check_homogenous ks d'.
  Proof.
    intros H. pose proof (nr_children _ _ H) as C. destruct ks as [|[|n] [|k ks]]; try reflexivity. unfold check_homogenous.
    unfold vget. pose proof (F2_nth _ _ _ C 0) as E. destruct (nth_error (children d) 0), (nth_error (children d') 0); cbn [orel] in E; try tauto. cbn [bind].
    rewrite (nr_shape (k :: ks) _ _ E). destruct (nest_shape (k :: ks) n0) as [s| |]; cbn [bind]; try reflexivity.
    clear E. induction C as [|x y l l' X F IH]; cbn [allM]; [reflexivity|]. rewrite (nr_shape (k :: ks) _ _ X), IH. reflexivity.
  Qed.
  Lemma nr_mem ks : forall d d', nr R d d' -> Forall2 R (nest_mem ks d) (nest_mem ks d').
  Proof.
    induction ks as [|k ks IH]; intros d d' H; cbn [nest_mem]; [destruct H; auto|]. pose proof (nr_children _ _ H) as C.
    induction C; cbn [flat_map]; [constructor|]. apply Forall2_app; auto.
  Qed.
  Lemma nr_flatten ks : forall d d', nr R d d' -> rres (Forall2 R) (nest_flatten ks d) (nest_flatten ks d').
  Proof.
    induction ks as [|k ks IH]; intros d d' H; [exact I|]. cbn [nest_flatten]. destruct ks as [|k2 ks]; [destruct k; apply (nr_mem [_]), H|]. destruct k as [|n].
    - eapply rbind; [apply (r_mapM (nr R)); [apply nr_children, H|exact IH]|]. intros x y E. cbn [rres]. clear - E. induction E; cbn [concat]; [constructor|]. now apply Forall2_app.
    - rewrite (nr_shape (KArr n :: k2 :: ks) _ _ H). apply rsame. intros s _. pose proof (nr_mem (KArr n :: k2 :: ks) _ _ H) as M. rewrite (F2_len _ _ _ M). destruct (_ && _); [exact M|exact I].
  Qed.
  Lemma bb_nd_new h h' ks d d' : hr R h h' -> nr R d d' -> rres (ar R) (nd_new h ks d) (nd_new h' ks d').
  Proof.
    intros H D. unfold nd_new. rewrite (nr_homogenous ks _ _ D), (nr_shape ks _ _ D). apply rsame. intros ok _. apply rsame. intros _ _. apply rsame. intros s _.
    eapply rbind; [apply nr_flatten, D|]. intros x y E. rewrite (F2_len _ _ _ E). bb.
  Qed.
End Access.

(** ** Sums of products *)
Section Sop.
  Context {T U : Type}.
  Variable R : T -> U -> Prop.
  Variables (zero one : T) (zero' one' : U).
  Variables (add mul : T -> T -> res T) (add' mul' : U -> U -> res U).
  Variables (fma : T -> T -> T -> res T) (fma' : U -> U -> U -> res U).
  Hypothesis Z : R zero zero'.
  Hypothesis O : R one one'.
  Hypothesis A : forall x x' y y', R x x' -> R y y' -> rres R (add x y) (add' x' y').
  Hypothesis M : forall x x' y y', R x x' -> R y y' -> rres R (mul x y) (mul' x' y').
  Hypothesis FM : forall x x' y y' z z', R x x' -> R y y' -> R z z' -> rres R (fma x y z) (fma' x' y' z').
  Hint Resolve Z O A M FM : bb.
  Lemma bb_prod_at k h h' ps : hr R h h' -> forall ss acc acc', R acc acc' -> rres R (prod_at mul h ps ss k acc) (prod_at mul' h' ps ss k acc').
  Proof. intros H. induction ps; intros; cbn [prod_at]; bb. Qed.
  Lemma bb_add_to h h' d v v' : hr R h h' -> R v v' -> rres (hr R) (add_to add h d v) (add_to add' h' d v').
  Proof. intros. unfold add_to. bb. Qed.
  Hint Resolve bb_prod_at bb_add_to : bb.
  Lemma bb_generic_go k : forall h h' ps ss d ds, hr R h h' -> rres (hr R) (sop_generic_go one add mul h ps ss d ds k) (sop_generic_go one' add' mul' h' ps ss d ds k).
  Proof. induction k; intros; cbn [sop_generic_go]; bb. Qed.
  Lemma bb_out0_go k : forall h h' ps ss s s', hr R h h' -> R s s' -> rres R (sop_out0_go one add mul h ps ss k s) (sop_out0_go one' add' mul' h' ps ss k s').
  Proof. induction k; intros; cbn [sop_out0_go]; bb. Qed.
  Lemma bb_muladd_go n : forall h h' c c' p d, hr R h h' -> R c c' -> rres (hr R) (muladd_go fma h c p d n) (muladd_go fma' h' c' p d n).
  Proof. induction n; intros; cbn [muladd_go]; bb. Qed.
  Lemma bb_111_go n : forall h h' p q d, hr R h h' -> rres (hr R) (sop_111_go add mul h p q d n) (sop_111_go add' mul' h' p q d n).
  Proof. induction n; intros; cbn [sop_111_go]; bb. Qed.
  Lemma bb_dot_go n : forall h h' p s q t acc acc', hr R h h' -> R acc acc' -> rres R (dot_go add mul h p s q t n acc) (dot_go add' mul' h' p s q t n acc').
  Proof. induction n; intros; cbn [dot_go]; bb. Qed.
  Lemma bb_fold_add n h h' p s acc acc' : hr R h h' -> R acc acc' -> rres R (fold_run (fun v acc => add acc v) h p n s acc) (fold_run (fun v acc => add' acc v) h' p n s acc').
  Proof. apply bb_fold_run. auto. Qed.
  Hint Resolve bb_generic_go bb_out0_go bb_muladd_go bb_111_go bb_dot_go bb_fold_add : bb.
  Lemma bb_generic h h' ps ss d ds n : hr R h h' -> rres (hr R) (sop_generic one add mul h ps ss d ds n) (sop_generic one' add' mul' h' ps ss d ds n).
  Proof. intros. unfold sop_generic. bb. Qed.
  Lemma bb_out0 h h' ps ss d n : hr R h h' -> rres (hr R) (sop_out0 zero one add mul h ps ss d n) (sop_out0 zero' one' add' mul' h' ps ss d n).
  Proof. intros. unfold sop_out0. bb. Qed.
  Lemma bb_muladd h h' p q d n : hr R h h' -> rres (hr R) (sop_muladd fma h p q d n) (sop_muladd fma' h' p q d n).
  Proof. intros. unfold sop_muladd. bb. Qed.
  Lemma bb_scaled h h' p q d n : hr R h h' -> rres (hr R) (sop_scaled zero add fma h p q d n) (sop_scaled zero' add' fma' h' p q d n).
  Proof. intros. unfold sop_scaled. bb. Qed.
  Lemma bb_111 h h' p q d n : hr R h h' -> rres (hr R) (sop_111 add mul h p q d n) (sop_111 add' mul' h' p q d n).
  Proof. intros. unfold sop_111. bb. Qed.
  Lemma bb_strided_dot h h' p s q t d n : hr R h h' -> rres (hr R) (strided_dot zero add mul h p s q t d n) (strided_dot zero' add' mul' h' p s q t d n).
  Proof. intros. unfold strided_dot. bb. Qed.
  Hint Resolve bb_generic bb_out0 bb_muladd bb_scaled bb_111 bb_strided_dot : bb.
  Lemma bb_two h h' p s q t d ds n : hr R h h' -> rres (hr R) (sop_two zero one add mul fma h p s q t d ds n) (sop_two zero' one' add' mul' fma' h' p s q t d ds n).
  Proof. intros. unfold sop_two. cbv zeta. destruct (_ + _ + _) as [|[|[|[|[|[|[|[|k]]]]]]]]; bb. Qed.
  Hint Resolve bb_two : bb.
  Lemma bb_fixed h h' ps ss d ds n : hr R h h' -> rres (hr R) (sop_fixed zero one add mul fma h ps ss d ds n) (sop_fixed zero' one' add' mul' fma' h' ps ss d ds n).
  Proof. intros. unfold sop_fixed. bb. Qed.
  Lemma bb_slice h h' ps ss d ds n : hr R h h' -> rres (hr R) (sop_slice zero one add mul h ps ss d ds n) (sop_slice zero' one' add' mul' h' ps ss d ds n).
  Proof. intros. unfold sop_slice. bb. Qed.
  Hint Resolve bb_fixed bb_slice : bb.
  Lemma bb_unspec_go k : forall g h h' bases d inner n, hr R h h' -> rres (hr R) (unspec_go zero one add mul k g h bases d inner n) (unspec_go zero' one' add' mul' k g h' bases d inner n).
  Proof. induction k; intros; cbn [unspec_go]; unfold call_sop; bb. Qed.
  Hint Resolve bb_unspec_go : bb.
  Lemma bb_unspecialized h h' bases strides sh d : hr R h h' -> rres (hr R) (unspecialized zero one add mul h bases strides sh d) (unspecialized zero' one' add' mul' h' bases strides sh d).
  Proof. intros. unfold unspecialized. bb. Qed.
  Hint Resolve bb_unspecialized : bb.
  Lemma bb_2labels h h' bases d0 d1 n0 n1 d : hr R h h' -> rres (hr R) (einsum_2labels zero one add mul fma h bases d0 d1 n0 n1 d) (einsum_2labels zero' one' add' mul' fma' h' bases d0 d1 n0 n1 d).
  Proof. intros H. unfold einsum_2labels. do 2 (apply rsame; intros _ _). apply r_for_each; [|exact H]. intros. unfold call_sop. bb. Qed.
  Lemma bb_3labels h h' bases d0 d1 d2 n0 n1 n2 d : hr R h h' -> rres (hr R) (einsum_3labels zero one add mul fma h bases d0 d1 d2 n0 n1 n2 d) (einsum_3labels zero' one' add' mul' fma' h' bases d0 d1 d2 n0 n1 n2 d).
  Proof. intros H. unfold einsum_3labels. do 3 (apply rsame; intros _ _). apply r_for_each; [|exact H]. intros. apply r_for_each; [|assumption]. intros. unfold call_sop. bb. Qed.
  Hint Resolve bb_2labels bb_3labels : bb.
  Lemma bb_run h h' bases strides sh d : hr R h h' -> rres (hr R) (run_einsum zero one add mul fma h bases strides sh d) (run_einsum zero' one' add' mul' fma' h' bases strides sh d).
  Proof. intros. unfold run_einsum. bb. Qed.
  Hint Resolve bb_run bb_fill : bb.
  Lemma bb_nd_einsum h h' ops subs out : hr R h h' -> rres (ar R) (nd_einsum zero one add mul fma h ops subs out) (nd_einsum zero' one' add' mul' fma' h' ops subs out).
  Proof. intros H. unfold nd_einsum. cbn [alloc]. rewrite <- (hr_len R _ _ H). bb. split; auto. Qed.
  Lemma bb_into h h' ops subs out rst d : hr R h h' -> rres (hr R) (einsum_into_ptr zero one add mul fma h ops subs out rst d) (einsum_into_ptr zero' one' add' mul' fma' h' ops subs out rst d).
  Proof. intros. unfold einsum_into_ptr. bb. Qed.
  Lemma bb_mm h h' a b rst d : hr R h h' -> rres (hr R) (matrix_matrix zero one add mul fma h a b rst d) (matrix_matrix zero' one' add' mul' fma' h' a b rst d).
  Proof. apply bb_into. Qed.
  Lemma bb_nd_dot h h' a b : hr R h h' -> rres (ar R) (nd_dot zero add mul h a b) (nd_dot zero' add' mul' h' a b).
  Proof.
    intros H. unfold nd_dot. destruct (a_shape a) as [|n [|]], (a_shape b) as [|m [|]], (a_stride a) as [|s [|]], (a_stride b) as [|t [|]]; try exact I.
    apply rsame. intros _ _. eapply rbind; [apply (bb_nd_scalar R); [exact H|exact Z]|]. intros [h1 r] [h1' r'] [E1 E2]. cbn [fst snd] in *. subst r'.
    eapply rbind; [eauto with bb|]. intros h2 h2' E. split; auto.
  Qed.
  Lemma bb_matvec_go n : forall h h' row rs s v t d c, hr R h h' -> rres (hr R) (matvec_go zero add mul h row rs s v t d c n) (matvec_go zero' add' mul' h' row rs s v t d c n).
  Proof. induction n; intros; cbn [matvec_go]; bb. Qed.
  Lemma bb_bmm_go n : forall h h' a b sa sb rst rs d, hr R h h' -> rres (hr R) (bmm_go zero one add mul fma h a b sa sb rst rs d n) (bmm_go zero' one' add' mul' fma' h' a b sa sb rst rs d n).
  Proof. induction n; intros; cbn [bmm_go]; [assumption|]. eapply rbind; [apply bb_mm; eassumption|auto]. Qed.
  Hint Resolve bb_mm bb_nd_dot bb_matvec_go bb_bmm_go : bb.
  Lemma bb_nd_matmul h h' a b : hr R h h' -> rres (ar R) (nd_matmul zero one add mul fma h a b) (nd_matmul zero' one' add' mul' fma' h' a b).
  Proof.
    intros H. unfold nd_matmul. cbn [alloc]. rewrite <- (hr_len R _ _ H). destruct (a_shape a) as [|n [|k [|]]], (a_shape b) as [|m [|k2 [|]]]; try exact I; [bb| |].
    - apply rsame; intros _ _. destruct (a_stride a) as [|rs [|s [|]]], (a_stride b) as [|t [|]]; try exact I. bb. split; auto.
    - apply rsame; intros _ _. eapply rbind; [apply (bb_nd_full R); [exact H|exact Z]|]. intros [h1 r] [h1' r'] [E1 E2]. cbn [fst snd] in *. subst r'.
      eapply rbind; [eauto with bb|]. intros h2 h2' E. split; auto.
  Qed.
  Lemma bb_nd_bmm h h' a b : hr R h h' -> rres (ar R) (nd_bmm zero one add mul fma h a b) (nd_bmm zero' one' add' mul' fma' h' a b).
  Proof.
    intros H. unfold nd_bmm. destruct (a_shape a) as [|n [|i [|j [|]]]]; try exact I. destruct (a_shape b) as [|n' [|j' [|k [|]]]]; try exact I.
    apply rsame; intros _ _. eapply rbind; [apply (bb_nd_full R); [exact H|exact Z]|]. intros [h1 r] [h1' r'] [E1 E2]. cbn [fst snd] in *. subst r'. bb. split; auto.
  Qed.
  Lemma bb_nd_trace h h' a o i j : hr R h h' -> rres (ar R) (nd_trace zero add h a o i j) (nd_trace zero' add' h' a o i j).
  Proof. intros. unfold nd_trace. bb. apply bb_nd_reduce_along; auto. Qed.
End Sop.
