(** PropsAlign.v: what the alignment assertion of the nested constructor does (C04). *)
From Coq Require Import List Arith Lia Bool.
From Verif Require Import Base Spec Layout SpecFacts LayoutFacts Views Kernels Access HeapFacts Nested PropsNew Align.
Import ListNotations.
Open Scope res_scope.

Lemma flatten_al_array {T} al n k ks (d : nest T) : flatten_al al (KArr n :: k :: ks) d =
  (_ <- guard (al <=? align_of al (k :: ks)) ;; nest_flatten (KArr n :: k :: ks) d).
Proof. reflexivity. Qed.
Lemma flatten_al_vec {T} al k ks (d : nest T) : flatten_al al (KVec :: k :: ks) d =
  (ls <- mapM (flatten_al al (k :: ks)) (children d) ;; Ok (concat ls)).
Proof. reflexivity. Qed.
Lemma nest_flatten_vec {T} k ks (d : nest T) : nest_flatten (KVec :: k :: ks) d =
  (ls <- mapM (nest_flatten (k :: ks)) (children d) ;; Ok (concat ls)).
Proof. reflexivity. Qed.

(** the assertion holds at every level *)
Fixpoint aligned (al : nat) (ks : list kind) : Prop :=
  match ks with
  | [] | [_] => True
  | KVec :: ks' => aligned al ks'
  | KArr _ :: ks' => al <= align_of al ks'
  end.

Lemma flatten_same {T} al : forall ks (d : nest T), aligned al ks -> flatten_al al ks d = nest_flatten ks d.
Proof.
  induction ks as [|k ks IH]; intros d A; [reflexivity|]. destruct ks as [|k' ks]; [reflexivity|]. destruct k.
  - rewrite flatten_al_vec, nest_flatten_vec. f_equal. apply mapM_ext. intros x _. apply IH. exact A.
  - rewrite flatten_al_array. change (al <= align_of al (k' :: ks)) in A. rewrite (proj2 (Nat.leb_le _ _) A). reflexivity.
Qed.
Lemma new_same {T} al (h : heap T) ks d : aligned al ks -> new_al al h ks d = nd_new h ks d.
Proof. intros A. unfold new_al, nd_new. now rewrite (flatten_same al ks d A). Qed.

Lemma align_small al ks : al <= 8 -> al <= align_of al ks.
Proof. intros L. induction ks as [|[|n] ks IH]; cbn [align_of]; lia. Qed.
Lemma align_arrs al ns : align_of al (map KArr ns) = al.
Proof. induction ns as [|n ns IH]; [reflexivity|exact IH]. Qed.

(** *** Elements of at most 8 bytes alignment: the assertion never fires, so that the theorems about
    [nd_new] are about the code.  In particular a fixed-size array of Vecs is read as memory it is not. *)
Theorem C04_alignment_small : forall T al (h : heap T) ks d, al <= 8 -> new_al al h ks d = nd_new h ks d.
Proof.
  intros T al h ks d L. apply new_same. induction ks as [|k ks IH]; [exact I|]. destruct ks as [|k' ks]; [destruct k; exact I|]. destruct k.
  - exact IH.
  - change (al <= align_of al (k' :: ks)). now apply align_small.
Qed.
Print Assumptions C04_alignment_small.

(** *** No fixed-size array around a Vec: the same, for elements of any alignment. *)
Theorem C04_alignment_vecs_outside : forall T al (h : heap T) ks d, vecs_outside ks -> new_al al h ks d = nd_new h ks d.
Proof.
  intros T al h ks d (m & ns & ->). apply new_same. induction m as [|m IH].
  - cbn [repeat app]. destruct ns as [|n [|n' ns]]; try exact I. change (al <= align_of al (map KArr (n' :: ns))). now rewrite align_arrs.
  - cbn [repeat app]. destruct (repeat KVec m ++ map KArr ns) as [|k ks] eqn:E; [exact I|]. exact IH.
Qed.
Print Assumptions C04_alignment_vecs_outside.

(** *** Elements aligned to more than a Vec (i128, u128): the constructor reads nothing it should
    not, whatever the data; a fixed-size array around a Vec makes it panic. *)
Lemma arrs_or_vec ks : (exists ns, ks = map KArr ns) \/ (exists ns ks', ks = map KArr ns ++ KVec :: ks').
Proof.
  induction ks as [|[|n] ks IH]; [left; now exists []|right; now exists [], ks|].
  destruct IH as [(ns & ->)|(ns & ks' & ->)]; [left; now exists (n :: ns)|right; now exists (n :: ns), ks'].
Qed.
Lemma align_vec al ns ks : align_of al (map KArr ns ++ KVec :: ks) = 8.
Proof. induction ns as [|n ns IH]; [reflexivity|exact IH]. Qed.

Lemma arrs_mem {T} : forall ns (d : nest T), typed (map KArr ns) d -> length (nest_mem (map KArr ns) d) = prod ns.
Proof.
  induction ns as [|n ns IH]; intros d TY; [destruct TY as (x & ->); reflexivity|].
  cbn [map typed] in TY. destruct TY as (l & -> & LL & F). cbn [map nest_mem children]. rewrite prod_cons. subst n.
  induction F as [|x l TX F IHl]; [reflexivity|]. cbn [flat_map length]. rewrite app_length, IHl, (IH x TX). lia.
Qed.
Lemma arrs_shape {T} : forall ns (d : nest T) s, typed (map KArr ns) d -> nest_shape (map KArr ns) d = Ok s -> s = ns.
Proof.
  induction ns as [|n ns IH]; intros d s TY E; [injection E as <-; reflexivity|].
  cbn [map typed] in TY. destruct TY as (l & -> & LL & F). destruct ns as [|n' ns].
  - cbn in E. injection E as <-. now rewrite LL.
  - destruct l as [|x l]; [discriminate|]. inversion F as [|? ? TX _]; subst.
    change (nest_shape (map KArr (length (x :: l) :: n' :: ns)) (Node (x :: l))) with
      (s <- nest_shape (map KArr (n' :: ns)) x ;; Ok (length (x :: l) :: s)) in E.
    destruct (nest_shape (map KArr (n' :: ns)) x) as [s'| |] eqn:E'; try discriminate. cbn [bind] in E. assert (ES : s = length (x :: l) :: s') by congruence. rewrite ES.
    now rewrite (IH x s' TX E').
Qed.

Lemma shape_safe {T} : forall ks (d : nest T), nest_shape ks d <> Oob.
Proof.
  induction ks as [|k ks IH]; intros d; [discriminate|]. destruct ks as [|k' ks]; [discriminate|].
  change (nest_shape (k :: k' :: ks) d) with (x <- vget (children d) 0 ;; s <- nest_shape (k' :: ks) x ;; Ok (length (children d) :: s)).
  unfold vget. destruct (nth_error (children d) 0) as [x|]; [|discriminate]. cbn [bind].
  specialize (IH x). destruct (nest_shape (k' :: ks) x); cbn [bind]; congruence.
Qed.
Lemma check_safe {T} ks (d : nest T) : check_homogenous ks d <> Oob.
Proof.
  destruct ks as [|[|n] [|k' ks]]; try discriminate. cbn [check_homogenous]. unfold vget. destruct (nth_error (children d) 0) as [x|]; [|discriminate]. cbn [bind].
  pose proof (shape_safe (k' :: ks) x) as S. destruct (nest_shape (k' :: ks) x) as [s| |]; cbn [bind]; try congruence.
  induction (children d) as [|y l IH]; [discriminate|]. cbn [allM]. pose proof (shape_safe (k' :: ks) y) as S'.
  destruct (nest_shape (k' :: ks) y) as [s'| |]; cbn [bind]; try congruence. destruct (list_eq_dec Nat.eq_dec s' s); [exact IH|discriminate].
Qed.

Lemma flatten_safe {T} al : 8 < al -> forall ks (d : nest T), typed ks d -> flatten_al al ks d <> Oob.
Proof.
  intros AL. induction ks as [|k ks IH]; intros d TY; [discriminate|]. destruct ks as [|k' ks]; [destruct k; discriminate|]. destruct k as [|n].
  - rewrite flatten_al_vec. destruct TY as (l & -> & F). cbn [children].
    assert (M : mapM (flatten_al al (k' :: ks)) l <> Oob).
    { induction F as [|x l TX F IHl]; [discriminate|]. cbn [mapM]. specialize (IH x TX).
      destruct (flatten_al al (k' :: ks) x); cbn [bind]; try congruence. destruct (mapM (flatten_al al (k' :: ks)) l); cbn [bind]; congruence. }
    destruct (mapM (flatten_al al (k' :: ks)) l); cbn [bind]; congruence.
  - rewrite flatten_al_array. destruct (arrs_or_vec (k' :: ks)) as [(ns & E)|(ns & ks' & E)]; rewrite E in *.
    + rewrite align_arrs, Nat.leb_refl. cbn [guard bind]. rewrite <- E. change (KArr n :: k' :: ks) with (KArr n :: (k' :: ks)).
      change (nest_flatten (KArr n :: k' :: ks) d) with
        (s <- nest_shape (KArr n :: k' :: ks) d ;; if forallb is_arr (k' :: ks) && (length (nest_mem (KArr n :: k' :: ks) d) =? prod s) then Ok (nest_mem (KArr n :: k' :: ks) d) else Oob).
      rewrite E. change (KArr n :: map KArr ns) with (map KArr (n :: ns)).
      destruct (nest_shape (map KArr (n :: ns)) d) as [s| |] eqn:ES; [|discriminate|now apply shape_safe in ES].
      cbn [bind]. rewrite (arrs_shape (n :: ns) d s TY ES), (arrs_mem (n :: ns) d TY), Nat.eqb_refl.
      assert (FA : forallb is_arr (map KArr ns) = true) by (apply forallb_forall; intros k I; apply in_map_iff in I as (? & <- & _); reflexivity).
      rewrite FA. discriminate.
    + rewrite align_vec. rewrite (proj2 (Nat.leb_gt _ _)) by exact AL. discriminate.
Qed.

Theorem C04_alignment_large : forall T al (h : heap T) ks d, 8 < al -> typed ks d -> new_al al h ks d <> Oob.
Proof.
  intros T al h ks d AL TY. unfold new_al. pose proof (check_safe ks d) as C. destruct (check_homogenous ks d) as [[|]| |]; cbn [bind guard]; try congruence.
  pose proof (shape_safe ks d) as S. destruct (nest_shape ks d) as [s| |]; cbn [bind]; try congruence.
  pose proof (flatten_safe al AL ks d TY) as F. destruct (flatten_al al ks d) as [l| |]; cbn [bind]; try congruence.
  destruct (negb (length l =? 0)); discriminate.
Qed.
Print Assumptions C04_alignment_large.

Theorem C04_alignment_panics : forall T al (h : heap T) n ns ks d, 8 < al ->
  new_al al h (KArr n :: map KArr ns ++ KVec :: ks) d = Panic.
Proof.
  intros T al h n ns ks d AL. unfold new_al. set (R := map KArr ns ++ KVec :: ks).
  assert (C : check_homogenous (KArr n :: R) d = Ok true) by reflexivity. rewrite C. cbn [bind guard].
  pose proof (shape_safe (KArr n :: R) d) as S. destruct (nest_shape (KArr n :: R) d) as [s| |]; cbn [bind]; try congruence.
  assert (F : flatten_al al (KArr n :: R) d = Panic); [|now rewrite F].
  assert (A : align_of al R = 8) by apply align_vec. destruct R as [|k' R'] eqn:E; [cbn in A; lia|].
  rewrite flatten_al_array, A. now rewrite (proj2 (Nat.leb_gt _ _)) by exact AL.
Qed.
Print Assumptions C04_alignment_panics.

(** [vec![1, 2], vec![3, 4]] of f64 (alignment 8) reads the headers of the Vecs; of u128 (alignment
    16) it panics *)
Example C04_alignment_ex : typed [KArr 2; KVec] arr_of_vec /\ new_al 8 [] [KArr 2; KVec] arr_of_vec = Oob /\
  new_al 16 [] [KArr 2; KVec] arr_of_vec = Panic /\ (exists h' r, new_al 16 [] [KVec; KArr 2] arr_of_vec = Ok (h', r)).
Proof. split; [|split; [reflexivity|split; [reflexivity|eexists _, _; reflexivity]]]. apply C04_array_of_vec_refuted. Qed.
