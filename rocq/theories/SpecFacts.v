(** SpecFacts.v: facts about the specification vocabulary. *)
From Coq Require Import List Arith Lia Bool ZArith.
From Verif Require Import Base Spec.
Import ListNotations.

Lemma prod_cons n l : prod (n :: l) = n * prod l.
Proof. reflexivity. Qed.

Lemma prod_app l1 l2 : prod (l1 ++ l2) = prod l1 * prod l2.
Proof. induction l1 as [|n l IH]; cbn [app]; rewrite ?prod_cons, ?IH; cbn [prod fold_right]; lia. Qed.

Lemma length_flat_map_const {A B} (f : A -> list B) l k :
  (forall x, In x l -> length (f x) = k) -> length (flat_map f l) = length l * k.
Proof.
  induction l as [|x l IH]; cbn [flat_map length]; intros H; [reflexivity|].
  rewrite app_length, IH, H; cbn [In]; auto. intros y Hy; apply H; cbn; auto.
Qed.

Lemma indices_length sh : length (indices sh) = prod sh.
Proof.
  induction sh as [|n sh IH]; [reflexivity|].
  cbn [indices]. rewrite length_flat_map_const with (k := prod sh).
  - now rewrite seq_length, prod_cons.
  - intros x _. now rewrite map_length.
Qed.

Lemma in_indices sh idx : In idx (indices sh) <-> in_range idx sh.
Proof.
  unfold in_range. revert idx; induction sh as [|n sh IH]; intros idx; cbn [indices].
  - split; intros H.
    + destruct H as [<-|[]]. constructor.
    + inversion H. now left.
  - rewrite in_flat_map. split.
    + intros (i & Hi & H). apply in_map_iff in H as (r & <- & Hr).
      apply in_seq in Hi. constructor; [lia|now apply IH].
    + intros H; inversion H as [|i n' r sh' Hi Hr]; subst.
      exists i. split; [apply in_seq; lia|]. apply in_map. now apply IH.
Qed.

Lemma Forall2_length {A B} (R : A -> B -> Prop) l1 l2 : Forall2 R l1 l2 -> length l1 = length l2.
Proof. induction 1; cbn [length]; auto. Qed.

Lemma in_range_length idx sh : in_range idx sh -> length idx = length sh.
Proof. apply Forall2_length. Qed.

Lemma in_range_cons i idx n sh : in_range (i :: idx) (n :: sh) <-> i < n /\ in_range idx sh.
Proof. unfold in_range; split; [intros H; inversion H; auto|intros []; now constructor]. Qed.

Lemma in_range_nil_l sh : in_range [] sh <-> sh = [].
Proof. unfold in_range; split; intros H; [now inversion H|subst; constructor]. Qed.

Lemma in_range_app i1 i2 s1 s2 : length i1 = length s1 ->
  in_range (i1 ++ i2) (s1 ++ s2) <-> in_range i1 s1 /\ in_range i2 s2.
Proof.
  revert s1; induction i1 as [|i i1 IH]; intros [|n s1]; cbn [app length]; intros L; try discriminate.
  - split; [intros H; split; [constructor|exact H]|tauto].
  - rewrite !in_range_cons, IH by lia. tauto.
Qed.

Lemma rank_lt idx sh : in_range idx sh -> rank idx sh < prod sh.
Proof.
  intros H; induction H as [|i n idx sh Hi H IH]; [cbn; lia|].
  cbn [rank]. rewrite prod_cons. nia.
Qed.

Lemma nth_error_flat_map_const {A B} (f : A -> list B) l k i j x :
  (forall y, In y l -> length (f y) = k) ->
  nth_error l i = Some x -> j < k ->
  nth_error (flat_map f l) (i * k + j) = nth_error (f x) j.
Proof.
  revert i; induction l as [|y l IH]; intros i H Hx Hj; [now destruct i|].
  cbn [flat_map]. destruct i as [|i].
  - cbn in Hx; injection Hx as ->. cbn [Nat.mul Nat.add].
    rewrite nth_error_app1; [reflexivity|]. rewrite H; cbn; auto.
  - cbn in Hx. assert (L : length (f y) = k) by (apply H; cbn; auto).
    rewrite nth_error_app2 by (cbn [Nat.mul]; lia).
    replace (S i * k + j - length (f y)) with (i * k + j) by (cbn [Nat.mul]; lia).
    apply IH; auto. intros z Hz; apply H; cbn; auto.
Qed.

Lemma nth_error_seq a n i : i < n -> nth_error (seq a n) i = Some (a + i).
Proof.
  revert a i; induction n as [|n IH]; intros a i H; [lia|].
  destruct i as [|i]; cbn [seq nth_error]; [f_equal; lia|].
  rewrite IH by lia. f_equal; lia.
Qed.

Lemma nth_indices_rank idx sh :
  in_range idx sh -> nth_error (indices sh) (rank idx sh) = Some idx.
Proof.
  intros H; induction H as [|i n idx sh Hi H IH]; [reflexivity|].
  cbn [indices rank].
  erewrite nth_error_flat_map_const with (x := i) (k := prod sh).
  - now rewrite nth_error_map, IH.
  - intros y _. now rewrite map_length, indices_length.
  - rewrite nth_error_seq by assumption. f_equal.
  - now apply rank_lt.
Qed.

Lemma nth_indices_inv sh k idx :
  nth_error (indices sh) k = Some idx -> in_range idx sh /\ rank idx sh = k.
Proof.
  intros H. assert (R : in_range idx sh) by (apply in_indices; eapply nth_error_In; eauto).
  split; [exact R|].
  revert idx k H R; induction sh as [|n sh IH]; intros idx k H R.
  - inversion R; subst. destruct k; [reflexivity|]. cbn in H. now destruct k.
  - assert (P : 0 < prod sh).
    { destruct (prod sh) eqn:E; [|lia]. exfalso.
      assert (length (indices (n :: sh)) = 0) by (rewrite indices_length, prod_cons; nia).
      apply length_zero_iff_nil in H0. rewrite H0 in H. now destruct k. }
    pose proof (Nat.div_mod k (prod sh) ltac:(lia)) as D.
    pose proof (Nat.mod_upper_bound k (prod sh) ltac:(lia)) as M.
    assert (K : k < n * prod sh).
    { rewrite <- prod_cons, <- indices_length. apply nth_error_Some. now rewrite H. }
    assert (Q : k / prod sh < n) by (apply Nat.div_lt_upper_bound; lia).
    rewrite D in H. cbn [indices] in H.
    replace (prod sh * (k / prod sh)) with (k / prod sh * prod sh) in H by lia.
    erewrite nth_error_flat_map_const with (x := k / prod sh) in H.
    + rewrite nth_error_map in H. destruct (nth_error (indices sh) (k mod prod sh)) as [r|] eqn:E; [|discriminate].
      cbn in H; injection H as <-. inversion R; subst.
      cbn [rank]. rewrite (IH _ _ E) by assumption. lia.
    + intros y _. now rewrite map_length, indices_length.
    + rewrite nth_error_seq by assumption. reflexivity.
    + assumption.
Qed.

Lemma rank_inj i j sh : in_range i sh -> in_range j sh -> rank i sh = rank j sh -> i = j.
Proof.
  intros Hi Hj E. apply nth_indices_rank in Hi, Hj. rewrite E in Hi. congruence.
Qed.

Lemma NoDup_indices sh : NoDup (indices sh).
Proof.
  apply NoDup_nth_error. intros i j Hi E.
  destruct (nth_error (indices sh) i) as [x|] eqn:Ei.
  - apply nth_indices_inv in Ei as [_ <-]. symmetry in E. apply nth_indices_inv in E as [_ <-]. reflexivity.
  - apply nth_error_Some in Hi. congruence.
Qed.

Lemma indices_0 sh : prod sh = 0 -> indices sh = [].
Proof. intros H. apply length_zero_iff_nil. now rewrite indices_length. Qed.

(** ** offsets: positions of all elements in row-major order *)
Definition offsets (sh st : list nat) : list nat := map (fun idx => dot idx st) (indices sh).

Lemma offsets_length sh st : length (offsets sh st) = prod sh.
Proof. unfold offsets. now rewrite map_length, indices_length. Qed.

Lemma flat_map_map {A B C} (f : A -> list B) (g : B -> C) l :
  map g (flat_map f l) = flat_map (fun x => map g (f x)) l.
Proof. induction l as [|x l IH]; [reflexivity|]. cbn [flat_map]. now rewrite map_app, IH. Qed.

Lemma offsets_cons n sh s st :
  offsets (n :: sh) (s :: st) = flat_map (fun i => map (Nat.add (i * s)) (offsets sh st)) (seq 0 n).
Proof.
  unfold offsets. cbn [indices]. rewrite flat_map_map. apply flat_map_ext. intros i.
  rewrite !map_map. now apply map_ext.
Qed.

Lemma offsets_nil : offsets [] [] = [0].
Proof. reflexivity. Qed.

Lemma offsets_nth sh st idx :
  in_range idx sh -> nth_error (offsets sh st) (rank idx sh) = Some (dot idx st).
Proof. intros H. unfold offsets. rewrite nth_error_map, nth_indices_rank by assumption. reflexivity. Qed.

Lemma seq_add a n m : seq a (n + m) = seq a n ++ seq (a + n) m.
Proof. apply seq_app. Qed.

Lemma map_add_seq c a n : map (Nat.add c) (seq a n) = seq (c + a) n.
Proof.
  revert a; induction n as [|n IH]; intros a; [reflexivity|].
  cbn [seq map]. rewrite IH. f_equal. f_equal; lia.
Qed.

Lemma seq_mul n m : seq 0 (n * m) = flat_map (fun i => map (Nat.add (i * m)) (seq 0 m)) (seq 0 n).
Proof.
  induction n as [|n IH]; [reflexivity|].
  replace (S n) with (n + 1) at 2 by lia. rewrite seq_app, flat_map_app, <- IH. cbn [flat_map seq].
  rewrite app_nil_r, map_add_seq.
  replace (S n * m) with (n * m + m) by lia. rewrite seq_app. f_equal. f_equal; lia.
Qed.

Lemma flat_map_flat_map {A B C} (f : A -> list B) (g : B -> list C) l :
  flat_map g (flat_map f l) = flat_map (fun x => flat_map g (f x)) l.
Proof. induction l as [|x l IH]; [reflexivity|]. cbn [flat_map]. now rewrite flat_map_app, IH. Qed.

Lemma flat_map_map_in {A B C} (f : A -> B) (g : B -> list C) l :
  flat_map g (map f l) = flat_map (fun x => g (f x)) l.
Proof. induction l as [|x l IH]; [reflexivity|]. cbn [flat_map map]. now rewrite IH. Qed.

(** merging two adjacent axes *)
Lemma offsets_merge n s n' s' sh st :
  s = n' * s' \/ n <= 1 ->
  offsets (n :: n' :: sh) (s :: s' :: st) = offsets (n * n' :: sh) (s' :: st).
Proof.
  intros H. rewrite !offsets_cons.
  rewrite seq_mul, flat_map_flat_map. 
  assert (E : forall i, In i (seq 0 n) -> i * s = i * (n' * s')).
  { intros i Hi. apply in_seq in Hi. destruct H as [->|H]; [reflexivity|].
    assert (i = 0) by lia. subst; lia. }
  rewrite !flat_map_concat_map. f_equal. apply map_ext_in. intros i Hi.
  specialize (E i Hi). rewrite flat_map_map_in, <- flat_map_concat_map.
  rewrite flat_map_map. apply flat_map_ext. intros j. rewrite map_map. apply map_ext. intros x.
  rewrite E. lia.
Qed.

(** rank is dot with the row-major strides *)
Fixpoint rm_stride (sh : list nat) : list nat :=
  match sh with [] => [] | _ :: sh' => prod sh' :: rm_stride sh' end.

Lemma rank_dot idx sh : rank idx sh = dot idx (rm_stride sh).
Proof.
  revert sh; induction idx as [|i idx IH]; intros [|n sh]; cbn [rank dot rm_stride]; auto.
Qed.

Lemma rm_stride_length sh : length (rm_stride sh) = length sh.
Proof. induction sh; cbn [rm_stride length]; auto. Qed.

Lemma offsets_rm sh : offsets sh (rm_stride sh) = seq 0 (prod sh).
Proof.
  induction sh as [|n sh IH]; [reflexivity|].
  cbn [rm_stride]. rewrite offsets_cons, IH, prod_cons, seq_mul. reflexivity.
Qed.

(** rm strides scaled by a unit *)
Lemma dot_scale idx st c : dot idx (map (Nat.mul c) st) = c * dot idx st.
Proof.
  revert st; induction idx as [|i idx IH]; intros [|s st]; cbn [dot map]; try lia.
  rewrite IH. lia.
Qed.

Lemma offsets_scale sh st c :
  offsets sh (map (Nat.mul c) st) = map (Nat.mul c) (offsets sh st).
Proof. unfold offsets. rewrite map_map. apply map_ext. intros; apply dot_scale. Qed.
