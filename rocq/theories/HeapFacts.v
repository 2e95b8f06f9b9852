(** HeapFacts.v: loads, stores, allocation; the result monad. *)
From Coq Require Import List Arith Lia Bool.
From Verif Require Import Base Spec SpecFacts ViewsFacts Kernels.
Import ListNotations.
Open Scope res_scope.

(** ** monad *)
Lemma bind_assoc {A B C} (m : res A) (k : A -> res B) (k' : B -> res C) :
  bind (bind m k) k' = bind m (fun x => bind (k x) k').
Proof. now destruct m. Qed.

Lemma bind_Ok_inv {A B} (m : res A) (k : A -> res B) y : bind m k = Ok y -> exists x, m = Ok x /\ k x = Ok y.
Proof. destruct m as [x| |]; cbn [bind]; try discriminate. intros H; exists x; auto. Qed.

Lemma bind_ext {A B} (m : res A) (k k' : A -> res B) : (forall x, m = Ok x -> k x = k' x) -> bind m k = bind m k'.
Proof. destruct m as [x| |]; cbn [bind]; auto. Qed.

Lemma mapM_ext {A B} (f g : A -> res B) l : (forall x, In x l -> f x = g x) -> mapM f l = mapM g l.
Proof.
  induction l as [|x l IH]; intros H; [reflexivity|]. cbn [mapM].
  rewrite (H x) by (cbn; auto). apply bind_ext. intros y _. rewrite IH; [reflexivity|]. intros z Hz; apply H; cbn; auto.
Qed.

Lemma mapM_map {A B C} (f : B -> res C) (g : A -> B) l : mapM f (map g l) = mapM (fun x => f (g x)) l.
Proof. induction l as [|x l IH]; [reflexivity|]. cbn [mapM map]. now rewrite IH. Qed.

Lemma mapM_length {A B} (f : A -> res B) l ys : mapM f l = Ok ys -> length ys = length l.
Proof.
  revert ys; induction l as [|x l IH]; intros ys H; cbn [mapM] in H.
  - injection H as <-. reflexivity.
  - apply bind_Ok_inv in H as (y & _ & H). apply bind_Ok_inv in H as (zs & E & H).
    injection H as <-. cbn [length]. f_equal. now apply IH.
Qed.

Lemma mapM_nth {A B} (f : A -> res B) l ys k x : mapM f l = Ok ys -> nth_error l k = Some x ->
  exists y, nth_error ys k = Some y /\ f x = Ok y.
Proof.
  revert ys k; induction l as [|a l IH]; intros ys k H N; [now destruct k|].
  cbn [mapM] in H. apply bind_Ok_inv in H as (y & E & H). apply bind_Ok_inv in H as (zs & E' & H). injection H as <-.
  destruct k as [|k]; cbn [nth_error] in *.
  - injection N as <-. eauto.
  - eapply IH; eauto.
Qed.

Lemma mapM_Ok {A B} (f : A -> res B) l : (forall x, In x l -> exists y, f x = Ok y) -> exists ys, mapM f l = Ok ys.
Proof.
  induction l as [|x l IH]; intros H; [exists []; reflexivity|].
  destruct (H x) as (y & E); [cbn; auto|]. destruct IH as (ys & E'); [intros z Hz; apply H; cbn; auto|].
  exists (y :: ys). cbn [mapM]. rewrite E. cbn [bind]. now rewrite E'.
Qed.

Lemma mapM_Ok_inv {A B} (f : A -> res B) l ys x : mapM f l = Ok ys -> In x l -> exists y, f x = Ok y /\ In y ys.
Proof.
  intros H I. apply In_nth_error in I as (k & N). destruct (mapM_nth _ _ _ _ _ H N) as (y & N' & E).
  exists y. split; [exact E|]. now apply nth_error_In in N'.
Qed.

Lemma mapM_pure {A B} (g : A -> B) l : mapM (fun x => Ok (g x)) l = Ok (map g l).
Proof. induction l as [|x l IH]; [reflexivity|]. cbn [mapM map]. cbn [bind]. now rewrite IH. Qed.

Lemma mapM_pure_ext {A B} (f : A -> res B) (g : A -> B) l : (forall x, In x l -> f x = Ok (g x)) -> mapM f l = Ok (map g l).
Proof. intros H. rewrite (mapM_ext f (fun x => Ok (g x)) l H). apply mapM_pure. Qed.

Lemma mapM_app {A B} (f : A -> res B) l1 l2 :
  mapM f (l1 ++ l2) = (x <- mapM f l1 ;; y <- mapM f l2 ;; Ok (x ++ y)).
Proof.
  induction l1 as [|a l1 IH]; cbn [app mapM bind].
  - destruct (mapM f l2); reflexivity.
  - rewrite IH. rewrite !bind_assoc. apply bind_ext. intros y _. cbn [bind]. rewrite !bind_assoc.
    apply bind_ext. intros zs _. cbn [bind]. rewrite !bind_assoc. reflexivity.
Qed.

Lemma nth_error_of_indices_get {T} (h : heap T) a ys idx :
  elems h a = Ok ys -> in_range idx (a_shape a) -> exists y, nth_error ys (rank idx (a_shape a)) = Some y /\ get h a idx = Ok y.
Proof. intros E R. eapply mapM_nth; [exact E|]. now apply nth_indices_rank. Qed.

Lemma valid_elems {T} (h : heap T) a : valid h a -> exists ys, elems h a = Ok ys.
Proof. intros [_ V]. apply mapM_Ok. intros idx I. apply V. now apply in_indices. Qed.

(** ** loads and stores *)
Lemma load_store {T} (h h' : heap T) b o v : store h b o v = Ok h' ->
  forall b' o', load h' b' o' = if (b' =? b) && (o' =? o) then Ok v else load h b' o'.
Proof.
  unfold store, load. intros H b' o'.
  destruct (nth_error h b) as [[l|]|] eqn:E; try discriminate.
  destruct (upd l o v) as [l'|] eqn:U; [|discriminate].
  destruct (upd h b (Some l')) as [h1|] eqn:U'; [|discriminate].
  injection H as <-. rewrite (upd_nth_error _ _ _ _ b' U').
  destruct (Nat.eqb_spec b' b) as [->|NB]; cbn [andb]; [|reflexivity].
  rewrite (upd_nth_error _ _ _ _ o' U), E. destruct (o' =? o); reflexivity.
Qed.

Lemma load_store_same {T} (h h' : heap T) b o v : store h b o v = Ok h' -> load h' b o = Ok v.
Proof. intros H. rewrite (load_store _ _ _ _ _ H), !Nat.eqb_refl. reflexivity. Qed.

Lemma load_store_other {T} (h h' : heap T) b o v b' o' : store h b o v = Ok h' -> (b', o') <> (b, o) ->
  load h' b' o' = load h b' o'.
Proof.
  intros H N. rewrite (load_store _ _ _ _ _ H).
  destruct (Nat.eqb_spec b' b), (Nat.eqb_spec o' o); subst; cbn [andb]; congruence.
Qed.

Lemma store_length {T} (h h' : heap T) b o v : store h b o v = Ok h' -> length h' = length h.
Proof.
  unfold store. destruct (nth_error h b) as [[l|]|]; try discriminate.
  destruct (upd l o v); [|discriminate]. destruct (upd h b _) as [h1|] eqn:U; [|discriminate].
  intros H; injection H as <-. eapply upd_length; eauto.
Qed.

Lemma store_ok {T} (h : heap T) b o v x : load h b o = Ok x -> exists h', store h b o v = Ok h'.
Proof.
  unfold load, store. destruct (nth_error h b) as [[l|]|] eqn:E; try discriminate.
  destruct (nth_error l o) eqn:E'; [|discriminate]. intros _.
  assert (O : o < length l) by (apply nth_error_Some; congruence).
  assert (B : b < length h) by (apply nth_error_Some; congruence).
  destruct (upd_some l o v O) as (l' & ->). destruct (upd_some h b (Some l') B) as (h' & ->). eauto.
Qed.

Lemma store_load_ok {T} (h h' : heap T) b o v : store h b o v = Ok h' -> exists x, load h b o = Ok x.
Proof.
  unfold load, store. destruct (nth_error h b) as [[l|]|] eqn:E; try discriminate.
  destruct (upd l o v) as [l'|] eqn:U; [|discriminate]. intros _.
  destruct (nth_error l o) eqn:E'; [eauto|]. apply nth_error_None in E'. now rewrite upd_none in U.
Qed.

Lemma store_not_panic {T} (h : heap T) b o v : store h b o v <> Panic.
Proof.
  unfold store. destruct (nth_error h b) as [[l|]|]; try discriminate.
  destruct (upd l o v); [|discriminate]. destruct (upd h b _); discriminate.
Qed.

Lemma load_not_panic {T} (h : heap T) b o : load h b o <> Panic.
Proof. unfold load. destruct (nth_error h b) as [[l|]|]; try discriminate. destruct (nth_error l o); discriminate. Qed.

Lemma load_lt {T} (h : heap T) b o v : load h b o = Ok v -> b < length h.
Proof.
  unfold load. intros H. apply nth_error_Some. destruct (nth_error h b) as [[l|]|]; congruence.
Qed.

(** ** allocation *)
Lemma load_app_old {T} (h h2 : heap T) b o : b < length h -> load (h ++ h2) b o = load h b o.
Proof. intros H. unfold load. now rewrite nth_error_app1. Qed.

Lemma load_app_new {T} (h : heap T) l o : load (h ++ [Some l]) (length h) o = match nth_error l o with Some v => Ok v | None => Oob end.
Proof. unfold load. rewrite nth_error_app2 by lia. now rewrite Nat.sub_diag. Qed.

Lemma load_app_Ok {T} (h h2 : heap T) b o v : load h b o = Ok v -> load (h ++ h2) b o = Ok v.
Proof. intros H. rewrite load_app_old; [exact H|]. eapply load_lt; eauto. Qed.

Lemma upd_app {A} (l1 l2 : list A) x v : upd (l1 ++ x :: l2) (length l1) v = Some (l1 ++ v :: l2).
Proof. induction l1 as [|y l1 IH]; [reflexivity|]. cbn [app length upd]. now rewrite IH. Qed.

Lemma store_fresh {T} (h : heap T) l1 x l2 v :
  store (h ++ [Some (l1 ++ x :: l2)]) (length h) (length l1) v = Ok (h ++ [Some (l1 ++ v :: l2)]).
Proof.
  unfold store. rewrite nth_error_app2 by lia. rewrite Nat.sub_diag. cbn [nth_error].
  rewrite upd_app. now rewrite (@upd_app _ h [] (Some (l1 ++ x :: l2))).
Qed.

Lemma valid_app {T} (h h2 : heap T) a : valid h a -> valid (h ++ h2) a.
Proof.
  intros [L V]. split; [exact L|]. intros idx R. destruct (V idx R) as (v & E). exists v.
  unfold get in *. now apply load_app_Ok.
Qed.

Lemma get_app {T} (h h2 : heap T) a idx : valid h a -> in_range idx (a_shape a) -> get (h ++ h2) a idx = get h a idx.
Proof. intros [_ V] R. destruct (V idx R) as (v & E). rewrite E. unfold get in *. now apply load_app_Ok. Qed.

Lemma elems_app {T} (h h2 : heap T) a : valid h a -> elems (h ++ h2) a = elems h a.
Proof. intros V. apply mapM_ext. intros idx I. apply get_app; [exact V|]. now apply in_indices. Qed.
