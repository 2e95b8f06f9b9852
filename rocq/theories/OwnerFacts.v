(** OwnerFacts.v: invariants of the ownership machines of Owner.v. *)
From Coq Require Import List Arith Bool ZArith Lia.
From Verif Require Import Base Layout Views Owner.
Import ListNotations.

(** ** Lists of variables *)
Lemma length_put {A} (l : list A) : forall i x, length (put l i x) = length l.
Proof. induction l as [|y l IH]; intros [|i] x; cbn; auto. Qed.

Lemma var_put {A} (l : list (option A)) : forall i v j,
  var (put l i v) j = if i =? j then (if i <? length l then v else None) else var l j.
Proof.
  unfold var. induction l as [|y l IH]; intros [|i] v [|j]; cbn; auto.
  - destruct (i =? j); auto.
  - rewrite (IH i v j). destruct (i =? j); auto.
Qed.

Lemma var_put_same {A} (l : list (option A)) i j (v : A) : var (put l i None) j = Some v -> i <> j /\ var l j = Some v.
Proof.
  rewrite var_put. destruct (i =? j) eqn:E.
  - destruct (i <? length l); discriminate.
  - apply Nat.eqb_neq in E. auto.
Qed.

Lemma var_put_other {A} (l : list (option A)) i j v : i <> j -> var (put l i v) j = var l j.
Proof. intros N. rewrite var_put. apply Nat.eqb_neq in N. now rewrite N. Qed.

Lemma var_app {A} (l : list (option A)) v j : var (l ++ [v]) j = if j =? length l then v else var l j.
Proof.
  unfold var. destruct (j =? length l) eqn:E.
  - apply Nat.eqb_eq in E as ->. rewrite nth_error_app2, Nat.sub_diag by lia. reflexivity.
  - apply Nat.eqb_neq in E. destruct (lt_dec j (length l)) as [L|L].
    + now rewrite nth_error_app1 by lia.
    + rewrite (proj2 (nth_error_None (l ++ [v]) j)) by (rewrite app_length; cbn; lia).
      now rewrite (proj2 (nth_error_None l j)) by lia.
Qed.

Lemma var_lt {A} (l : list (option A)) j v : var l j = Some v -> j < length l.
Proof.
  unfold var. intros H. destruct (nth_error l j) eqn:E; [|discriminate].
  apply nth_error_Some. congruence.
Qed.

Lemma var_app_old {A} (l : list (option A)) w j v : var l j = Some v -> var (l ++ [w]) j = Some v.
Proof.
  intros H. rewrite var_app. pose proof (var_lt _ _ _ H). destruct (j =? length l) eqn:E; auto.
  apply Nat.eqb_eq in E. lia.
Qed.

Lemma look_done {A} (l : list (option A)) x a : look l x = Done a -> var l x = Some a.
Proof. unfold look. destruct (var l x); congruence. Qed.

Lemma mem_In x l : mem x l = true <-> In x l.
Proof.
  unfold mem. rewrite existsb_exists. split.
  - intros (y & I & E). apply Nat.eqb_eq in E. now subst.
  - intros I. exists x. split; auto. apply Nat.eqb_refl.
Qed.

Lemma unborrowed_spec E x y k bs : unborrowed E x = true -> var E y = Some (k, bs) -> ~ In x bs.
Proof.
  unfold unborrowed, var. rewrite forallb_forall. intros U V I.
  destruct (nth_error E y) as [v|] eqn:N; [|discriminate]. subst v.
  apply nth_error_In in N. apply U in N. apply mem_In in I. rewrite I in N. discriminate.
Qed.

(** ** Views never own; consuming operations pass ownership on with capacity 0 *)
Lemma update_owned fl sh st : f_owned (update_flags fl sh st) = f_owned fl.
Proof. unfold update_flags. destruct (has_uniform_stride sh st); reflexivity. Qed.

Lemma bind_ok {A B} (m : res A) (k : A -> res B) r : bind m k = Ok r -> exists a, m = Ok a /\ k a = Ok r.
Proof. destruct m; cbn; intros; try discriminate. eauto. Qed.

Lemma apply_shape_form m a o r : apply_shape m a o = Ok r -> exists sh st, r = reshaped_view m a sh st.
Proof.
  destruct o; cbn [apply_shape].
  - intros [= <-]. unfold nd_view. eauto.
  - unfold nd_reshape. destruct (list_eqb sh (a_shape a)).
    + intros [= <-]. unfold nd_view. eauto.
    + intros H. repeat (apply bind_ok in H as (? & _ & H)). 
      repeat match type of H with (let '(_, _) := ?x in _) = _ => destruct x end.
      repeat match type of H with (if ?c then _ else _) = _ => destruct c end;
      try discriminate; injection H as <-; eauto.
  - unfold nd_transpose. intros H. repeat (apply bind_ok in H as (? & _ & H)). injection H as <-. eauto.
  - intros [= <-]. unfold nd_squeeze. eauto.
  - unfold nd_unsqueeze. intros H. apply bind_ok in H as (ax & _ & H).
    repeat match type of H with (if ?c then _ else _) = _ => destruct c end;
    repeat (apply bind_ok in H as (? & _ & H)); injection H as <-; eauto.
Qed.

Lemma shape_byref a o r : apply_shape ByRef a o = Ok r -> a_blk r = a_blk a /\ f_owned (a_fl r) = false.
Proof. intros H. apply apply_shape_form in H as (sh & st & ->). auto. Qed.

Lemma shape_byvalue a o r : apply_shape ByValue a o = Ok r ->
  a_blk r = a_blk a /\ a_off r = a_off a /\ a_cap r = 0 /\ f_owned (a_fl r) = f_owned (a_fl a).
Proof.
  intros H. apply apply_shape_form in H as (sh & st & ->). cbn. rewrite update_owned. auto.
Qed.

Lemma view_not_owned a o r : apply_view a o = Ok r -> a_blk r = a_blk a /\ f_owned (a_fl r) = false.
Proof.
  destruct o; cbn [apply_view].
  - apply shape_byref.
  - unfold nd_slice. intros H. apply bind_ok in H as (((o & sh) & st) & _ & H).
    apply bind_ok in H as (l & _ & H). injection H as <-. auto.
  - unfold nd_slice_along. intros H. repeat (apply bind_ok in H as (? & _ & H)).
    repeat match type of H with (let '(_, _) := ?x in _) = _ => destruct x end.
    repeat (apply bind_ok in H as (? & _ & H)). injection H as <-. auto.
  - unfold nd_offset_diagonal_along. intros H. repeat (apply bind_ok in H as (? & _ & H)).
    repeat match type of H with (if ?c then _ else _) = _ => destruct c end;
    repeat match type of H with (let '(_, _) := ?x in _) = _ => destruct x end;
    repeat (apply bind_ok in H as (? & _ & H)); injection H as <-; auto.
  - unfold nd_broadcast_to. intros H. repeat (apply bind_ok in H as (? & _ & H)). injection H as <-. auto.
Qed.

(** computing a view touches no memory *)
Definition calm {A} (m : res A) : Prop := m <> Oob.

Lemma calm_bind {A B} (m : res A) (k : A -> res B) : calm m -> (forall a, calm (k a)) -> calm (bind m k).
Proof. unfold calm. destruct m; cbn; auto; congruence. Qed.

Lemma calm_ok {A} (a : A) : calm (Ok a). Proof. discriminate. Qed.
Lemma calm_panic {A} : calm (@Panic A). Proof. discriminate. Qed.
Lemma calm_guard b : calm (guard b). Proof. destruct b; discriminate. Qed.
Lemma calm_csub a b : calm (csub a b). Proof. unfold csub. destruct (a <? b); discriminate. Qed.
Lemma calm_vget {A} (l : list A) i : calm (vget l i). Proof. unfold vget. destruct (nth_error l i); discriminate. Qed.
Lemma calm_vset {A} (l : list A) i v : calm (vset l i v). Proof. unfold vset. destruct (upd l i v); discriminate. Qed.
Lemma calm_absolute i n : calm (as_absolute i n).
Proof. unfold as_absolute. destruct ((i <? _) || _)%Z; discriminate. Qed.

Ltac calm :=
  intros; repeat first
    [ apply calm_ok | apply calm_panic | apply calm_guard | apply calm_csub | apply calm_vget | apply calm_vset
    | apply calm_absolute | assumption
    | apply calm_bind; [|intros]
    | match goal with
      | |- calm (if ?c then _ else _) => destruct c
      | |- calm (let '(_, _) := ?x in _) => destruct x
      | |- calm (match ?x with _ => _ end) => destruct x
      end ].

Lemma calm_vinsert {A} (l : list A) : forall i x, calm (vinsert l i x).
Proof. induction l as [|y l IH]; intros [|i] x; cbn [vinsert]; calm; apply IH. Qed.

Lemma calm_vremove {A} (l : list A) : forall i, calm (vremove l i).
Proof. induction l as [|y l IH]; intros [|i]; cbn [vremove]; calm; apply IH. Qed.

Lemma calm_vswap {A} (l : list A) i j : calm (vswap l i j).
Proof. unfold vswap. calm. Qed.

Lemma calm_len sh : forall st, calm (strided_len_sum sh st).
Proof. induction sh as [|n sh IH]; intros [|s st]; cbn [strided_len_sum]; calm; apply IH. Qed.

Lemma calm_indexed ix n : calm (indexed_length ix n).
Proof. destruct ix; cbn [indexed_length]; calm. Qed.

Lemma calm_slice_go ixs : forall sh st, calm (slice_go ixs sh st).
Proof.
  induction ixs as [|ix ixs IH]; intros sh st; cbn [slice_go]; [calm|].
  destruct sh as [|n sh]; [calm|]. destruct st as [|s st]; [calm|].
  apply calm_bind; [apply calm_indexed|intros l]. apply calm_bind; [apply IH|intros [[o sh1] st1]]. calm.
Qed.

Lemma calm_bstride osh : forall st bsh, calm (bstride_go st bsh osh).
Proof.
  induction osh as [|n osh IH]; intros [|s st] [|m bsh]; cbn [bstride_go]; try apply calm_ok.
  apply calm_bind; [calm|intros x]. apply calm_bind; [apply IH|calm].
Qed.

Lemma calm_shape m a o : calm (apply_shape m a o).
Proof.
  destruct o; cbn [apply_shape]; [calm| | |calm|].
  - unfold nd_reshape. calm.
  - unfold nd_transpose. calm; apply calm_vswap.
  - unfold nd_unsqueeze. calm; apply calm_vinsert.
Qed.

Lemma calm_view a o : calm (apply_view a o).
Proof.
  destruct o; cbn [apply_view].
  - apply calm_shape.
  - unfold nd_slice, strided_len. apply calm_bind; [apply calm_slice_go|intros [[o sh] st]].
    apply calm_bind; [|calm]. apply calm_bind; [apply calm_len|calm].
  - unfold nd_slice_along, strided_len. calm; first [apply calm_vremove|apply calm_indexed|apply calm_len].
  - unfold nd_offset_diagonal_along. calm.
  - unfold nd_broadcast_to, broadcast_shape, broadcast_stride. calm; apply calm_bstride.
Qed.

(** ** The array machine *)
(** Holds in every state an accepted program reaches. *)
Record ok (bl : blocks) (vs : list (option arr)) (E : typing) : Prop := {
  ok_len : length vs = length E;
  ok_dom : forall x, var vs x = None <-> var E x = None;
  (* an owner has a 'static type and points to the start of a live buffer *)
  ok_own : forall x a, var vs x = Some a -> f_owned (a_fl a) = true ->
    (exists k, var E x = Some (k, [])) /\ a_off a = 0 /\
    exists n, var bl (a_blk a) = Some n /\ (a_cap a = 0 \/ a_cap a = n);
  (* a buffer has at most one owner *)
  ok_uniq : forall x y a b, var vs x = Some a -> var vs y = Some b ->
    f_owned (a_fl a) = true -> f_owned (a_fl b) = true -> a_blk a = a_blk b -> x = y }.

Lemma ok_start : ok [] [] [].
Proof.
  split; [reflexivity|intros [|x]; cbn; tauto| |].
  - intros [|x] a; discriminate.
  - intros [|x] y a b; discriminate.
Qed.

Lemma ok_typed bl vs E x k bs : ok bl vs E -> var E x = Some (k, bs) -> exists a, var vs x = Some a.
Proof.
  intros O V. destruct (var vs x) as [a|] eqn:X; eauto. apply (ok_dom _ _ _ O) in X. congruence.
Qed.

Lemma ok_push_view bl vs E r k bs : ok bl vs E -> f_owned (a_fl r) = false ->
  ok bl (vs ++ [Some r]) (E ++ [Some (k, bs)]).
Proof.
  intros [L D W U] F. split.
  - rewrite !app_length. cbn. lia.
  - intros x. rewrite !var_app, L. destruct (x =? length E); [split; discriminate|apply D].
  - intros x a. rewrite !var_app, L. destruct (x =? length E); [congruence|apply W].
  - intros x y a b. rewrite !var_app. 
    destruct (x =? length vs); destruct (y =? length vs); try congruence. apply U.
Qed.

Lemma ok_push_owner bl vs E r k n : ok bl vs E -> a_off r = 0 -> var bl (a_blk r) = Some n ->
  a_cap r = 0 \/ a_cap r = n ->
  (forall x a, var vs x = Some a -> f_owned (a_fl a) = true -> a_blk a <> a_blk r) ->
  ok bl (vs ++ [Some r]) (E ++ [Some (k, [])]).
Proof.
  intros [L D W U] O B C N. split.
  - rewrite !app_length. cbn. lia.
  - intros x. rewrite !var_app, L. destruct (x =? length E); [split; discriminate|apply D].
  - intros x a. rewrite !var_app, L. destruct (x =? length E).
    + intros [= <-] _. eauto 6.
    + apply W.
  - intros x y a b. rewrite !var_app. destruct (x =? length vs) eqn:X; destruct (y =? length vs) eqn:Y.
    + intros _ _ _ _ _. apply Nat.eqb_eq in X, Y. lia.
    + intros [= <-] H _ F Q. symmetry in Q. now destruct (N _ _ H F).
    + intros H [= <-] F _ Q. now destruct (N _ _ H F).
    + apply U.
Qed.

Lemma ok_kill bl vs E x : ok bl vs E -> ok bl (put vs x None) (put E x None).
Proof.
  intros [L D W U]. split.
  - now rewrite !length_put.
  - intros y. rewrite !var_put, L. destruct (x =? y); [|apply D]. destruct (x <? length E); tauto.
  - intros y a H F. apply var_put_same in H as [N H]. rewrite var_put_other by auto. now apply W.
  - intros y z a b H1 H2. apply var_put_same in H1 as [_ H1]. apply var_put_same in H2 as [_ H2]. eauto.
Qed.

Lemma ok_more bl vs E n : ok bl vs E -> ok (bl ++ [Some n]) vs E.
Proof.
  intros [L D W U]. split; auto. intros x a H F. destruct (W x a H F) as (T & O & m & V & C).
  split; [assumption|]. split; [assumption|]. exists m. split; [now apply var_app_old|assumption].
Qed.

Lemma ok_below bl vs E x a : ok bl vs E -> var vs x = Some a -> f_owned (a_fl a) = true -> a_blk a < length bl.
Proof. intros O H F. destruct (ok_own _ _ _ O x a H F) as (_ & _ & n & V & _). eapply var_lt; eauto. Qed.

Lemma ok_new bl vs E sh : ok bl vs E ->
  ok (bl ++ [Some (prod sh)]) (vs ++ [Some (fresh_arr (length bl) (prod sh) sh)]) (E ++ [Some (KArray, [])]).
Proof.
  intros O. apply ok_push_owner with (n := prod sh); auto.
  - now apply ok_more.
  - cbn. rewrite var_app, Nat.eqb_refl. reflexivity.
  - intros x a H F. pose proof (ok_below _ _ _ _ _ O H F). cbn. lia.
Qed.

(** freeing the buffer of the variable just removed *)
Lemma ok_free bl vs E x a : ok bl vs E -> var vs x = Some a -> f_owned (a_fl a) = true ->
  ok (put bl (a_blk a) None) (put vs x None) (put E x None).
Proof.
  intros O H F. destruct (ok_kill bl vs E x O) as [L D W U]. split; auto.
  intros y b Y G. destruct (W y b Y G) as (T & Z & n & V & C).
  split; [assumption|]. split; [assumption|]. exists n. split; [|assumption].
  rewrite var_put_other; auto. intros Q. apply var_put_same in Y as [N Y].
  apply N. eapply (ok_uniq _ _ _ O); eauto.
Qed.

Lemma drop_ok bl vs E x a : ok bl vs E -> var vs x = Some a ->
  exists bl', drop_arr bl a = Done bl' /\ ok bl' (put vs x None) (put E x None).
Proof.
  intros O H. unfold drop_arr. destruct (f_owned (a_fl a)) eqn:F.
  - destruct (ok_own _ _ _ O x a H F) as (_ & Z & n & V & C). unfold drop_vec. rewrite V, Z.
    destruct (a_cap a =? 0) eqn:Q.
    + eexists. split; [reflexivity|]. now apply ok_kill.
    + destruct C as [C|C]; [apply Nat.eqb_neq in Q; lia|]. rewrite C, !Nat.eqb_refl. cbn [andb].
      eexists. split; [reflexivity|]. now apply (ok_free bl vs E x a).
  - eexists. split; [reflexivity|]. now apply ok_kill.
Qed.

Ltac typed O :=
  match goal with
  | T : match var ?E ?x with _ => _ end = Some _ |- _ =>
      let V := fresh "TV" in
      destruct (var E x) as [[k bs]|] eqn:V; [|discriminate];
      let a := fresh "a" in let H := fresh "VA" in
      destruct (ok_typed _ _ _ _ _ _ O V) as (a & H)
  end.

Lemma step_ok bl vs E i E' : ok bl vs E -> tstep E i = Some E' ->
  match step (bl, vs) i with
  | Done (bl', vs') => ok bl' vs' E'
  | Panicked | BadUse => True
  | BadFree | NoVar => False
  end.
Proof.
  intros O T. destruct i; cbn [tstep] in T; cbn [step new_block].
  - injection T as <-. now apply ok_new.
  - typed O. destruct k; try discriminate. injection T as <-.
    unfold look. rewrite VA. cbn [obind]. destruct (apply_view a o) as [r| |] eqn:A; cbn [of_res obind]; auto.
    apply view_not_owned in A as [_ A]. now apply ok_push_view.
  - typed O. destruct k; try discriminate. destruct (unborrowed E x); [|discriminate]. injection T as <-.
    unfold look. rewrite VA. cbn [obind]. destruct (apply_shape ByValue a o) as [r| |] eqn:A; cbn [of_res obind]; auto.
    apply shape_byvalue in A as (B & Z & C & F).
    destruct (f_owned (a_fl a)) eqn:FA.
    + destruct (ok_own _ _ _ O x a VA FA) as (_ & Z' & n & V & _).
      apply ok_push_owner with (n := n); try congruence; auto.
      * now apply ok_kill.
      * intros y b Y G Q. apply var_put_same in Y as [N Y]. apply N. eapply (ok_uniq _ _ _ O); eauto. congruence.
    + apply ok_push_view; auto. now apply ok_kill.
  - typed O. destruct k; try discriminate. injection T as <-.
    unfold look. rewrite VA. cbn [obind]. unfold touch. destruct (var bl (a_blk a)); cbn [obind]; auto.
    now apply ok_new.
  - typed O. destruct k; try discriminate. injection T as <-.
    unfold look. rewrite VA. cbn [obind]. destruct (f_contig (a_fl a)); auto. now apply ok_push_view.
  - typed O. destruct k; try discriminate. destruct (unborrowed E x); [|discriminate]. injection T as <-.
    unfold look. rewrite VA. cbn [obind]. destruct (f_owned (a_fl a)) eqn:FA; cbn [andb]; auto.
    destruct (f_contig (a_fl a)); auto.
    destruct (ok_own _ _ _ O x a VA FA) as (_ & Z & n & V & C).
    apply ok_push_owner with (n := n); auto.
    + now apply ok_kill.
    + intros y b Y G Q. apply var_put_same in Y as [N Y]. apply N. eapply (ok_uniq _ _ _ O); eauto. 
  - typed O. injection T as <-. unfold look. rewrite VA. cbn [obind]. unfold touch.
    destruct (var bl (a_blk a)); cbn [obind]; auto.
  - typed O. destruct (unborrowed E x); [|discriminate]. injection T as <-.
    unfold look. rewrite VA. cbn [obind]. destruct (drop_ok _ _ _ _ _ O VA) as (bl' & -> & O'). exact O'.
Qed.

Lemma checks_cons extra E i p : checks extra E (i :: p) = true ->
  extra E i = true /\ exists E', tstep E i = Some E' /\ checks extra E' p = true.
Proof.
  cbn [checks]. intros H. apply andb_true_iff in H as [H1 H2]. split; auto.
  destruct (tstep E i); [eauto|discriminate].
Qed.

Lemma checks_weak extra : forall p E, checks extra E p = true -> checks (fun _ _ => true) E p = true.
Proof.
  induction p as [|i p IH]; intros E H; auto. apply checks_cons in H as (_ & E' & T & H).
  cbn [checks]. rewrite T. cbn. auto.
Qed.

(** a property of states kept by every step an accepted program makes *)
Lemma run_keeps extra (P : blocks -> list (option arr) -> typing -> Prop) :
  (forall bl vs E i E' bl' vs', ok bl vs E -> P bl vs E -> extra E i = true -> tstep E i = Some E' ->
     step (bl, vs) i = Done (bl', vs') -> P bl' vs' E') ->
  forall p bl vs E, ok bl vs E -> P bl vs E -> checks extra E p = true ->
    match run (bl, vs) p with
    | Done (bl', vs') => exists E', ok bl' vs' E' /\ P bl' vs' E'
    | Panicked | BadUse => True
    | BadFree | NoVar => False
    end.
Proof.
  intros K. induction p as [|i p IH]; intros bl vs E O H C.
  - cbn. eauto.
  - apply checks_cons in C as (X & E' & T & C). cbn [run].
    pose proof (step_ok bl vs E i E' O T) as S.
    destruct (step (bl, vs) i) as [[bl' vs']| | | |] eqn:Q; cbn [obind]; auto.
    eapply IH; eauto.
Qed.

(** ** No use after free *)
(** every live array owns its buffer or borrows, directly or not, from the live owner *)
Definition anchored (vs : list (option arr)) (E : typing) : Prop :=
  forall x a k bs, var vs x = Some a -> var E x = Some (k, bs) ->
    f_owned (a_fl a) = true \/
    exists y b, In y bs /\ var vs y = Some b /\ f_owned (a_fl b) = true /\ a_blk b = a_blk a.

Lemma anchored_touch bl vs E x a : ok bl vs E -> anchored vs E -> var vs x = Some a -> touch bl a = Done tt.
Proof.
  intros O A H. unfold touch. destruct (var E x) as [[k bs]|] eqn:T.
  - destruct (A x a k bs H T) as [F|(y & b & _ & Y & F & B)].
    + destruct (ok_own _ _ _ O x a H F) as (_ & _ & n & V & _). now rewrite V.
    + destruct (ok_own _ _ _ O y b Y F) as (_ & _ & n & V & _). rewrite <- B. now rewrite V.
  - apply (ok_dom _ _ _ O) in T. congruence.
Qed.

Lemma anchored_push vs E r k bs : length vs = length E -> anchored vs E ->
  (f_owned (a_fl r) = true \/ exists y b, In y bs /\ var vs y = Some b /\ f_owned (a_fl b) = true /\ a_blk b = a_blk r) ->
  anchored (vs ++ [Some r]) (E ++ [Some (k, bs)]).
Proof.
  intros L A R x a k' bs'. rewrite !var_app, L. destruct (x =? length E).
  - intros [= <-] [= <- <-]. destruct R as [R|(y & b & I & Y & R)]; auto.
    right. exists y, b. split; [assumption|]. split; [|assumption]. now apply var_app_old.
  - intros H T. destruct (A x a k' bs' H T) as [F|(y & b & I & Y & F)]; auto.
    right. exists y, b. split; [assumption|]. split; [|assumption]. now apply var_app_old.
Qed.

Lemma anchored_kill vs E x : unborrowed E x = true -> anchored vs E -> anchored (put vs x None) (put E x None).
Proof.
  intros U A y a k bs H T. apply var_put_same in H as [N H]. apply var_put_same in T as [_ T].
  destruct (A y a k bs H T) as [F|(z & b & I & Z & F)]; auto.
  right. exists z, b. split; [assumption|]. split; [|assumption].
  rewrite var_put_other; auto. intros ->. now apply (unborrowed_spec _ _ _ _ _ U T).
Qed.

(** consume only arrays with a 'static type; take data_slice only of views *)
Definition lifetimes_kept (E : typing) (i : instr) : bool :=
  match i with
  | IMove x _ => is_static E x
  | ISlice x => negb (is_static E x)
  | _ => true
  end.

Lemma static_owned vs E x a : anchored vs E -> var vs x = Some a -> is_static E x = true -> f_owned (a_fl a) = true.
Proof.
  unfold is_static. intros A H S. destruct (var E x) as [[k [|y bs]]|] eqn:T; try discriminate.
  destruct (A x a k [] H T) as [F|(y & b & [] & _)]. exact F.
Qed.

Lemma step_anchored bl vs E i E' : ok bl vs E -> anchored vs E -> lifetimes_kept E i = true -> tstep E i = Some E' ->
  match step (bl, vs) i with
  | Done (bl', vs') => anchored vs' E'
  | BadUse => False
  | _ => True
  end.
Proof.
  intros O A X T. pose proof (ok_len _ _ _ O) as L.
  assert (L2 : forall x, length (put vs x None) = length (put E x None)) by (intros; now rewrite !length_put).
  destruct i; cbn [tstep] in T; cbn [step new_block]; cbn [lifetimes_kept] in X.
  - injection T as <-. apply anchored_push; auto.
  - typed O. destruct k; try discriminate. injection T as <-.
    unfold look. rewrite VA. cbn [obind]. pose proof (calm_view a o) as Q.
    destruct (apply_view a o) as [r| |] eqn:R; cbn [of_res obind]; auto.
    apply view_not_owned in R as [B _]. apply anchored_push; auto. right. rewrite B.
    destruct (A x a KArray bs VA TV) as [F|(y & b & I & Y & F & G)].
    + exists x, a. cbn; auto.
    + exists y, b. cbn; auto.
  - typed O. destruct k; try discriminate. destruct (unborrowed E x) eqn:U; [|discriminate]. injection T as <-.
    unfold look. rewrite VA. cbn [obind]. pose proof (calm_shape ByValue a o) as Q.
    destruct (apply_shape ByValue a o) as [r| |] eqn:R; cbn [of_res obind]; auto.
    apply shape_byvalue in R as (_ & _ & _ & R). apply anchored_push; auto.
    + now apply anchored_kill.
    + left. rewrite R. eapply static_owned; eauto.
  - typed O. destruct k; try discriminate. injection T as <-.
    unfold look. rewrite VA. cbn [obind]. rewrite (anchored_touch _ _ _ _ _ O A VA). cbn [obind].
    apply anchored_push; auto.
  - typed O. destruct k; try discriminate. injection T as <-.
    unfold look. rewrite VA. cbn [obind]. destruct (f_contig (a_fl a)); auto.
    apply anchored_push; auto. right. cbn [a_blk as_slice].
    destruct (A x a KArray bs VA TV) as [F|R]; auto.
    destruct (ok_own _ _ _ O x a VA F) as ((k & S) & _). unfold is_static in X. rewrite S in X. discriminate.
  - typed O. destruct k; try discriminate. destruct (unborrowed E x) eqn:U; [|discriminate]. injection T as <-.
    unfold look. rewrite VA. cbn [obind]. destruct (f_owned (a_fl a)) eqn:FA; cbn [andb]; auto.
    destruct (f_contig (a_fl a)); auto. apply anchored_push; auto. now apply anchored_kill.
  - typed O. injection T as <-. unfold look. rewrite VA. cbn [obind].
    rewrite (anchored_touch _ _ _ _ _ O A VA). cbn [obind]. auto.
  - typed O. destruct (unborrowed E x) eqn:U; [|discriminate]. injection T as <-.
    unfold look. rewrite VA. cbn [obind]. destruct (drop_ok _ _ _ _ _ O VA) as (bl' & -> & _). cbn [obind].
    now apply anchored_kill.
Qed.

Lemma run_anchored : forall p bl vs E, ok bl vs E -> anchored vs E -> checks lifetimes_kept E p = true ->
  run (bl, vs) p <> BadUse.
Proof.
  induction p as [|i p IH]; intros bl vs E O A C.
  - discriminate.
  - apply checks_cons in C as (X & E' & T & C). cbn [run].
    pose proof (step_ok bl vs E i E' O T) as S. pose proof (step_anchored bl vs E i E' O A X T) as S2.
    destruct (step (bl, vs) i) as [[bl' vs']| | | |]; cbn [obind]; try congruence.
    eapply IH; eauto.
Qed.

(** ** No leak *)
(** every allocated buffer that is not empty has a live owner that knows its capacity *)
Definition covered (bl : blocks) (vs : list (option arr)) (E : typing) : Prop :=
  forall b n, var bl b = Some n -> n = 0 \/
    exists x a, var vs x = Some a /\ f_owned (a_fl a) = true /\ a_blk a = b /\ a_cap a = n.

(** consume only arrays that are views *)
Definition consumes_views (E : typing) (i : instr) : bool :=
  match i with IMove x _ => negb (is_static E x) | _ => true end.

Lemma covered_push bl vs E v : covered bl vs E -> covered bl (vs ++ [v]) E.
Proof.
  intros C b n H. destruct (C b n H) as [?|(x & a & X & F)]; auto.
  right. exists x, a. split; auto. now apply var_app_old.
Qed.

Lemma covered_new bl vs E sh : covered bl vs E ->
  covered (bl ++ [Some (prod sh)]) (vs ++ [Some (fresh_arr (length bl) (prod sh) sh)]) E.
Proof.
  intros C b n. rewrite var_app. destruct (b =? length bl) eqn:Q.
  - intros [= <-]. right. apply Nat.eqb_eq in Q as ->.
    exists (length vs), (fresh_arr (length bl) (prod sh) sh). rewrite var_app, Nat.eqb_refl. auto.
  - exact (covered_push bl vs E _ C b n).
Qed.

Lemma step_covered bl vs E i E' bl' vs' : ok bl vs E -> covered bl vs E -> consumes_views E i = true ->
  tstep E i = Some E' -> step (bl, vs) i = Done (bl', vs') -> covered bl' vs' E'.
Proof.
  intros O C X T S. 
  destruct i; cbn [tstep] in T; cbn [step new_block] in S; cbn [consumes_views] in X.
  - injection S as <- <-. now apply covered_new.
  - destruct (look vs x) as [a| | | |]; try discriminate. cbn [obind] in S.
    destruct (apply_view a o); try discriminate. cbn [of_res obind] in S. injection S as <- <-. now apply covered_push.
  - typed O. destruct k; try discriminate. unfold look in S. rewrite VA in S. cbn [obind] in S.
    destruct (apply_shape ByValue a o) as [r| |]; try discriminate. cbn [of_res obind] in S. injection S as <- <-.
    apply (covered_push _ _ E'). intros b n H. destruct (C b n H) as [?|(y & d & Y & F & R)]; auto.
    right. exists y, d. split; [|auto]. rewrite var_put_other; auto. intros ->.
    destruct (ok_own _ _ _ O y d Y F) as ((k & Q) & _). unfold is_static in X. rewrite Q in X. discriminate.
  - destruct (look vs x) as [a| | | |]; try discriminate. cbn [obind] in S.
    destruct (touch bl a); try discriminate. cbn [obind] in S. injection S as <- <-. now apply covered_new.
  - destruct (look vs x) as [a| | | |]; try discriminate. cbn [obind] in S.
    destruct (f_contig (a_fl a)); try discriminate. injection S as <- <-. now apply covered_push.
  - destruct (look vs x) as [a| | | |] eqn:K; try discriminate. apply look_done in K. cbn [obind] in S.
    destruct (f_owned (a_fl a)) eqn:FA; cbn [andb] in S; [|discriminate].
    destruct (f_contig (a_fl a)); [|discriminate]. injection S as <- <-.
    intros b n H. destruct (C b n H) as [?|(y & d & Y & F & B & R)]; auto. right.
    destruct (Nat.eq_dec x y) as [<-|N].
    + exists (length (put vs x None)), (as_vec a). rewrite var_app, Nat.eqb_refl.
      replace d with a in * by congruence. auto.
    + exists y, d. split; auto. apply var_app_old. now rewrite var_put_other.
  - destruct (look vs x) as [a| | | |]; try discriminate. cbn [obind] in S.
    destruct (touch bl a); try discriminate. cbn [obind] in S. injection S as <- <-. exact C.
  - destruct (look vs x) as [a| | | |] eqn:K; try discriminate. apply look_done in K. cbn [obind] in S.
    unfold drop_arr, drop_vec in S. destruct (f_owned (a_fl a)) eqn:FA.
    + destruct (ok_own _ _ _ O x a K FA) as (_ & Z & m & V & D). rewrite V, Z in S.
      destruct (a_cap a =? 0) eqn:CZ.
      * cbn [obind] in S. injection S as <- <-. intros b n H.
        destruct (C b n H) as [?|(y & d & Y & F & B & R)]; auto.
        destruct (Nat.eq_dec x y) as [<-|N].
        -- left. apply Nat.eqb_eq in CZ. congruence.
        -- right. exists y, d. rewrite var_put_other by auto. auto.
      * destruct D as [D|D]; [apply Nat.eqb_neq in CZ; lia|]. rewrite D, !Nat.eqb_refl in S. cbn in S.
        injection S as <- <-. intros b n H. apply var_put_same in H as [NB H].
        destruct (C b n H) as [?|(y & d & Y & F & B & R)]; auto.
        right. exists y, d. rewrite var_put_other; auto. intros ->. congruence.
    + cbn [obind] in S. injection S as <- <-. intros b n H.
      destruct (C b n H) as [?|(y & d & Y & F & B & R)]; auto.
      right. exists y, d. rewrite var_put_other; auto. intros ->. congruence.
Qed.

(** ** A consumed owner leaks *)
(** buffer [b] is allocated, not empty, and whoever owns it has capacity 0 *)
Definition doomed (b n : nat) (bl : blocks) (vs : list (option arr)) (E : typing) : Prop :=
  var bl b = Some n /\ 
  forall x a, var vs x = Some a -> f_owned (a_fl a) = true -> a_blk a = b -> a_cap a = 0.

Lemma step_doomed b n bl vs E i E' bl' vs' : ok bl vs E -> doomed b n bl vs E ->
  tstep E i = Some E' -> step (bl, vs) i = Done (bl', vs') -> doomed b n bl' vs' E'.
Proof.
  intros O [V C] T S. pose proof (var_lt _ _ _ V) as LB.
  assert (PUSH : forall ws r, (forall x a, var ws x = Some a -> f_owned (a_fl a) = true -> a_blk a = b -> a_cap a = 0) ->
    (f_owned (a_fl r) = true -> a_blk r = b -> a_cap r = 0) ->
    forall x a, var (ws ++ [Some r]) x = Some a -> f_owned (a_fl a) = true -> a_blk a = b -> a_cap a = 0).
  { intros ws r W R x a. rewrite var_app. destruct (x =? length ws); [intros [= <-]; auto|apply W]. }
  assert (KILL : forall x y a, var (put vs x None) y = Some a -> f_owned (a_fl a) = true -> a_blk a = b -> a_cap a = 0).
  { intros x y a H. apply var_put_same in H as [_ H]. eauto. }
  destruct i; cbn [tstep] in T; cbn [step new_block] in S.
  - injection S as <- <-. split; [now apply var_app_old|]. apply PUSH; auto. cbn. lia.
  - destruct (look vs x) as [a| | | |]; try discriminate. cbn [obind] in S.
    destruct (apply_view a o) as [r| |] eqn:A; try discriminate. cbn [of_res obind] in S. injection S as <- <-.
    split; auto. apply PUSH; auto. apply view_not_owned in A as [_ A]. congruence.
  - destruct (look vs x) as [a| | | |]; try discriminate. cbn [obind] in S.
    destruct (apply_shape ByValue a o) as [r| |] eqn:A; try discriminate. cbn [of_res obind] in S. injection S as <- <-.
    split; auto. apply PUSH; [apply KILL|]. apply shape_byvalue in A as (_ & _ & A & _). auto.
  - destruct (look vs x) as [a| | | |]; try discriminate. cbn [obind] in S.
    destruct (touch bl a); try discriminate. cbn [obind] in S. injection S as <- <-.
    split; [now apply var_app_old|]. apply PUSH; auto. cbn. lia.
  - destruct (look vs x) as [a| | | |]; try discriminate. cbn [obind] in S.
    destruct (f_contig (a_fl a)); try discriminate. injection S as <- <-. split; auto. apply PUSH; auto.
  - destruct (look vs x) as [a| | | |] eqn:K; try discriminate. apply look_done in K. cbn [obind] in S.
    destruct (f_owned (a_fl a)) eqn:FA; cbn [andb] in S; [|discriminate].
    destruct (f_contig (a_fl a)); [|discriminate]. injection S as <- <-. split; auto.
    apply PUSH; [apply KILL|]. cbn. eauto.
  - destruct (look vs x) as [a| | | |]; try discriminate. cbn [obind] in S.
    destruct (touch bl a); try discriminate. cbn [obind] in S. injection S as <- <-. split; auto.
  - destruct (look vs x) as [a| | | |] eqn:K; try discriminate. apply look_done in K. cbn [obind] in S.
    unfold drop_arr, drop_vec in S. destruct (f_owned (a_fl a)) eqn:FA.
    + destruct (a_cap a =? 0) eqn:CZ.
      * cbn [obind] in S. injection S as <- <-. split; auto. apply KILL.
      * destruct (var bl (a_blk a)) as [m|]; [|discriminate].
        destruct ((a_off a =? 0) && (a_cap a =? m)); [|discriminate]. cbn [obind] in S. injection S as <- <-.
        split; [|apply KILL]. rewrite var_put_other; auto. intros Q. apply Nat.eqb_neq in CZ. eauto.
    + cbn [obind] in S. injection S as <- <-. split; auto. apply KILL.
Qed.

Lemma run_app : forall p q s, run s (p ++ q) = obind (run s p) (fun s' => run s' q).
Proof.
  induction p as [|i p IH]; intros q s; [reflexivity|].
  cbn [run app]. destruct (step s i) as [s'| | | |]; cbn [obind]; auto.
Qed.

Lemma checks_app extra : forall p q E, checks extra E (p ++ q) = true ->
  checks extra E p = true /\
  (forall bl vs bl' vs', ok bl vs E -> run (bl, vs) p = Done (bl', vs') ->
     exists E', ok bl' vs' E' /\ checks extra E' q = true).
Proof.
  induction p as [|i p IH]; intros q E C.
  - split; auto. intros bl vs bl' vs' O R. cbn in R. injection R as <- <-. eauto.
  - cbn [app] in C. apply checks_cons in C as (X & E' & T & C). destruct (IH q E' C) as [C1 C2].
    split; [cbn [checks]; rewrite X, T; exact C1|].
    intros bl vs bl' vs' O R. cbn [run] in R. pose proof (step_ok bl vs E i E' O T) as S.
    destruct (step (bl, vs) i) as [[b1 v1]| | | |]; try discriminate. cbn [obind] in R. eauto.
Qed.

(** ** The tensor machine *)
(** shared arrays that own their buffer: the buffer is live, and no one else owns it *)
Record sound (bl : blocks) (rcs : list (option arr)) : Prop := {
  so_own : forall r a, var rcs r = Some a -> f_owned (a_fl a) = true ->
    a_off a = 0 /\ exists n, var bl (a_blk a) = Some n /\ (a_cap a = 0 \/ a_cap a = n);
  so_uniq : forall r s a b, var rcs r = Some a -> var rcs s = Some b ->
    f_owned (a_fl a) = true -> f_owned (a_fl b) = true -> a_blk a = a_blk b -> r = s }.

Lemma var_cons {A} (v : option A) l i : var (v :: l) (S i) = var l i.
Proof. reflexivity. Qed.

Lemma sound_tail bl v rcs : sound bl (v :: rcs) -> sound bl rcs.
Proof.
  intros [W U]. split.
  - intros r a H. apply (W (S r) a H).
  - intros r s a b H1 H2 F1 F2 Q. specialize (U (S r) (S s) a b H1 H2 F1 F2 Q). lia.
Qed.

Lemma drop_sound bl a rcs : sound bl (Some a :: rcs) ->
  exists bl', drop_arr bl a = Done bl' /\ sound bl' rcs /\ length bl' = length bl /\
    (forall b, (f_owned (a_fl a) = true -> a_blk a <> b) -> var bl' b = var bl b).
Proof.
  intros S. pose proof (sound_tail _ _ _ S) as S'. unfold drop_arr. destruct (f_owned (a_fl a)) eqn:F.
  2:{ eauto 6. }
  destruct (so_own _ _ S 0 a eq_refl F) as (Z & n & V & C). unfold drop_vec. rewrite V, Z.
  destruct (a_cap a =? 0) eqn:Q; [eauto 6|].
  destruct C as [C|C]; [apply Nat.eqb_neq in Q; lia|]. rewrite C, !Nat.eqb_refl. cbn [andb].
  eexists. split; [reflexivity|]. split; [|split; [apply length_put|]].
  - destruct S' as [W U]. split; [|exact U]. intros r d H G. destruct (W r d H G) as (Y & m & X & D).
    split; [assumption|]. exists m. split; [|assumption]. rewrite var_put_other; auto. intros B.
    assert (0 = Datatypes.S r) as Q0 by (eapply (so_uniq _ _ S 0 (Datatypes.S r) a d); eauto). discriminate.
  - intros b N. rewrite var_put_other; auto.
Qed.

Lemma collect_spec vs : forall rcs k bl, sound bl rcs ->
  exists bl' rcs', collect vs k rcs bl = Done (bl', rcs') /\ length rcs' = length rcs /\ length bl' = length bl /\
    (forall i, var rcs' i = if held vs (k + i) then var rcs i else None) /\
    (forall b, (forall i a, var rcs i = Some a -> f_owned (a_fl a) = true -> a_blk a = b -> held vs (k + i) = true) ->
       var bl' b = var bl b).
Proof.
  induction rcs as [|v rcs IH]; intros k bl S.
  - exists bl, []. repeat split; auto. intros [|i]; destruct (held vs _); reflexivity.
  - pose proof (sound_tail _ _ _ S) as S'.
    assert (SHIFT : forall i, k + Datatypes.S i = Datatypes.S k + i) by (intros; lia).
    assert (KEEP : forall bl1, sound bl1 rcs -> length bl1 = length bl -> (v = None \/ held vs k = true) ->
      (forall b, var bl1 b = var bl b) ->
      exists bl' rcs', obind (collect vs (Datatypes.S k) rcs bl1) (fun p => Done (fst p, v :: snd p)) = Done (bl', rcs') /\
        length rcs' = length (v :: rcs) /\ length bl' = length bl /\
        (forall i, var rcs' i = if held vs (k + i) then var (v :: rcs) i else None) /\
        (forall b, (forall i a, var (v :: rcs) i = Some a -> f_owned (a_fl a) = true -> a_blk a = b -> held vs (k + i) = true) ->
           var bl' b = var bl b)).
    { intros bl1 S1 L1 K EQ. destruct (IH (Datatypes.S k) bl1 S1) as (bl' & rcs' & -> & L & LB & R & B).
      exists bl', (v :: rcs'). cbn [obind fst snd]. split; [reflexivity|]. split; [cbn; lia|]. split; [congruence|]. split.
      - intros [|i].
        + rewrite Nat.add_0_r. destruct K as [->| ->]; [destruct (held vs k)|]; reflexivity.
        + rewrite !var_cons, SHIFT. apply R.
      - intros b H. rewrite B; auto. intros i a V F Q. rewrite <- SHIFT. apply (H (Datatypes.S i) a V F Q). }
    destruct v as [a|]; cbn [collect]; [destruct (held vs k) eqn:HK|].
    + apply KEEP; auto.
    + clear KEEP. destruct (drop_sound _ _ _ S) as (bl1 & -> & S1 & L1 & E1). cbn [obind].
      destruct (IH (Datatypes.S k) bl1 S1) as (bl' & rcs' & -> & L & LB & R & B).
      exists bl', (None :: rcs'). cbn [obind fst snd]. split; [reflexivity|]. split; [cbn; lia|]. split; [congruence|]. split.
      * intros [|i].
        -- rewrite Nat.add_0_r, HK. reflexivity.
        -- rewrite !var_cons, SHIFT. apply R.
      * intros b H. rewrite B.
        -- apply E1. intros F Q. specialize (H 0 a eq_refl F Q). rewrite Nat.add_0_r in H. congruence.
        -- intros i d V F Q. rewrite <- SHIFT. apply (H (Datatypes.S i) d V F Q).
    + apply KEEP; auto.
Qed.

Lemma held_spec vs r : held vs r = true <-> exists x r' g, var vs x = Some (r', g) /\ (r = r' \/ In r (saved g)).
Proof.
  unfold held. rewrite existsb_exists. split.
  - intros ([[r' g]|] & I & H); [|discriminate]. apply In_nth_error in I as (x & I).
    exists x, r', g. split; [exact (f_equal (fun o => match o with Some v => v | None => None end) I)|].
    apply orb_true_iff in H as [H|H]; [left; now apply Nat.eqb_eq|right; now apply mem_In].
  - intros (x & r' & g & V & H). exists (Some (r', g)). unfold var in V.
    destruct (nth_error vs x) eqn:N; [|discriminate]. subst. split; [eapply nth_error_In; eauto|].
    apply orb_true_iff. destruct H as [->|H]; [left; apply Nat.eqb_refl|right; now apply mem_In].
Qed.

(** Holds in every state an accepted program reaches. *)
Record tok (bl : blocks) (rcs : list (option arr)) (vs : list (option tensor)) (E : typing) : Prop := {
  tk_len : length vs = length E;
  tk_dom : forall x, var vs x = None <-> var E x = None;
  (* what a live tensor refers to still exists *)
  tk_rc : forall r, held vs r = true -> exists a, var rcs r = Some a;
  tk_sound : sound bl rcs }.

Lemma tok_start : tok [] [] [] [].
Proof.
  split; [reflexivity|intros [|x]; cbn; tauto|discriminate|].
  split; [intros [|r] a; discriminate|intros [|r] s a b; discriminate].
Qed.

Lemma settle_tok bl rcs vs E : tok bl rcs vs E ->
  exists bl' rcs', settle bl rcs vs = Done (bl', rcs', vs) /\ tok bl' rcs' vs E /\ length bl' = length bl /\
    (forall r, held vs r = true -> var rcs' r = var rcs r) /\
    (forall r a, var rcs' r = Some a -> var rcs r = Some a /\ held vs r = true).
Proof.
  intros [L D H S]. unfold settle. destruct (collect_spec vs rcs 0 bl S) as (bl' & rcs' & -> & L1 & LB & R & B).
  exists bl', rcs'. cbn [obind fst snd]. cbn [Nat.add] in R, B.
  assert (K : forall r a, var rcs' r = Some a -> var rcs r = Some a /\ held vs r = true).
  { intros r a V. rewrite R in V. destruct (held vs r); [auto|discriminate]. }
  split; [reflexivity|]. split; [|split; [assumption|split; [|assumption]]].
  - split; auto.
    + intros r HH. rewrite R, HH. auto.
    + split.
      * intros r a V F. destruct (K r a V) as [V' HH]. destruct (so_own _ _ S r a V' F) as (Z & n & VB & C).
        split; [assumption|]. exists n. split; [|assumption]. rewrite B; auto.
        intros i d VI FI Q. replace i with r; auto. eapply (so_uniq _ _ S r i); eauto.
      * intros r s a b V1 V2. destruct (K _ _ V1) as [V1' _], (K _ _ V2) as [V2' _]. eapply (so_uniq _ _ S); eauto.
  - intros r HH. rewrite R, HH. reflexivity.
Qed.

Lemma held_push vs v r : held (vs ++ [v]) r = held vs r || match v with Some (r', g) => (r =? r') || mem r (saved g) | None => false end.
Proof. unfold held. rewrite existsb_app. cbn. now rewrite orb_false_r. Qed.

Lemma held_kill vs x r : held (put vs x None) r = true -> held vs r = true.
Proof.
  rewrite !held_spec. intros (y & r' & g & V & H). apply var_put_same in V as [_ V]. eauto 6.
Qed.

Lemma sound_push_view bl rcs v : sound bl rcs -> f_owned (a_fl v) = false -> sound bl (rcs ++ [Some v]).
Proof.
  intros [W U] F. split.
  - intros r a. rewrite var_app. destruct (r =? length rcs); [congruence|apply W].
  - intros r s a b. rewrite !var_app. destruct (r =? length rcs); destruct (s =? length rcs); try congruence. apply U.
Qed.

Lemma sound_push_owner bl rcs a n : sound bl rcs -> a_off a = 0 -> var bl (a_blk a) = Some n -> a_cap a = 0 \/ a_cap a = n ->
  (forall r b, var rcs r = Some b -> f_owned (a_fl b) = true -> a_blk b <> a_blk a) -> sound bl (rcs ++ [Some a]).
Proof.
  intros [W U] Z V C N. split.
  - intros r b. rewrite var_app. destruct (r =? length rcs); [intros [= <-]; eauto|apply W].
  - intros r s b d. rewrite !var_app. destruct (r =? length rcs) eqn:X; destruct (s =? length rcs) eqn:Y.
    + intros _ _ _ _ _. apply Nat.eqb_eq in X, Y. lia.
    + intros [= <-] H _ F Q. symmetry in Q. now destruct (N _ _ H F).
    + intros H [= <-] F _ Q. now destruct (N _ _ H F).
    + apply U.
Qed.

Lemma sound_more bl rcs n : sound bl rcs -> sound (bl ++ [Some n]) rcs.
Proof.
  intros [W U]. split; auto. intros r a H F. destruct (W r a H F) as (Z & m & V & C).
  split; [assumption|]. exists m. split; [now apply var_app_old|assumption].
Qed.

Lemma sound_new bl rcs sh : sound bl rcs -> sound (bl ++ [Some (prod sh)]) (rcs ++ [Some (fresh_arr (length bl) (prod sh) sh)]).
Proof.
  intros S. apply sound_push_owner with (n := prod sh); auto.
  - now apply sound_more.
  - cbn. now rewrite var_app, Nat.eqb_refl.
  - intros r b H F Q. destruct (so_own _ _ S r b H F) as (_ & n & V & _). apply var_lt in V. cbn in Q. lia.
Qed.

Lemma sound_forget bl rcs r : sound bl rcs -> sound bl (put rcs r None).
Proof.
  intros [W U]. split.
  - intros s a H. apply var_put_same in H as [_ H]. eauto.
  - intros s t a b H1 H2. apply var_put_same in H1 as [_ H1]. apply var_put_same in H2 as [_ H2]. eauto.
Qed.

(** pushing a tensor whose graph keeps only existing arrays *)
Lemma tok_push bl rcs vs E a g k bs : length vs = length E -> (forall x, var vs x = None <-> var E x = None) ->
  (forall r, held vs r = true -> exists b, var rcs r = Some b) ->
  sound bl (rcs ++ [Some a]) ->
  (forall r, In r (saved g) -> exists b, var rcs r = Some b) ->
  tok bl (rcs ++ [Some a]) (vs ++ [Some (length rcs, g)]) (E ++ [Some (k, bs)]).
Proof.
  intros L D H S G. split; auto.
  - rewrite !app_length. cbn. lia.
  - intros x. rewrite !var_app, L. destruct (x =? length E); [split; discriminate|apply D].
  - intros r. rewrite held_push. intros Q. apply orb_true_iff in Q as [Q|Q].
    + destruct (H r Q) as (b & V). exists b. now apply var_app_old.
    + apply orb_true_iff in Q as [Q|Q].
      * apply Nat.eqb_eq in Q as ->. rewrite var_app, Nat.eqb_refl. eauto.
      * apply mem_In in Q. destruct (G r Q) as (b & V). exists b. now apply var_app_old.
Qed.

Lemma tok_typed bl rcs vs E x k bs : tok bl rcs vs E -> var E x = Some (k, bs) ->
  exists r g, var vs x = Some (r, g) /\ (exists a, var rcs r = Some a) /\
    (forall s, In s (saved g) -> exists a, var rcs s = Some a).
Proof.
  intros T V. destruct (var vs x) as [[r g]|] eqn:X.
  - exists r, g. split; auto. split.
    + apply (tk_rc _ _ _ _ T). apply held_spec. eauto 6.
    + intros s I. apply (tk_rc _ _ _ _ T). apply held_spec. eauto 6.
  - apply (tk_dom _ _ _ _ T) in X. congruence.
Qed.

Lemma reads_saved g : forall r, In r (reads g) -> In r (saved g).
Proof.
  induction g as [| |g1 I1 g2 I2|a b g1 I1 g2 I2|a b g1 I1 g2 I2]; cbn [reads saved]; intros r H; auto.
  - apply in_app_iff in H. apply in_app_iff. firstorder.
  - cbn. rewrite in_app_iff. apply in_app_iff in H.
    destruct (is_none g1), (is_none g2); cbn in H; firstorder.
  - cbn. rewrite in_app_iff. destruct (is_none g1), (is_none g2); cbn in H; rewrite ?in_app_iff in H; cbn in H; firstorder.
Qed.

Lemma touch_all_cases bl rcs l : (forall r, In r l -> exists a, var rcs r = Some a) ->
  touch_all bl rcs l = Done tt \/ touch_all bl rcs l = BadUse.
Proof.
  induction l as [|r l IH]; intros H; cbn [touch_all]; auto.
  destruct (H r (or_introl eq_refl)) as (a & V). unfold look. rewrite V. cbn [obind]. unfold touch.
  destruct (var bl (a_blk a)); cbn [obind]; auto. apply IH. intros s I. apply H. now right.
Qed.

Lemma shape_graph_saved o g : saved (shape_graph o g) = saved g.
Proof.
  destruct o; cbn [shape_graph]; auto; destruct g; cbn [is_none saved]; rewrite ?app_nil_r; reflexivity.
Qed.

Lemma pass_saved g : saved (if is_none g then GNone else GPass g GNone) = saved g.
Proof. destruct g; cbn [is_none saved]; rewrite ?app_nil_r; reflexivity. Qed.

Lemma bin_saved o l r g g' s : In s (saved (bin_graph o l r g g')) -> s = l \/ s = r \/ In s (saved g) \/ In s (saved g').
Proof.
  unfold bin_graph. destruct (is_none g && is_none g'); cbn; [tauto|].
  destruct o; cbn; rewrite in_app_iff; firstorder.
Qed.

Lemma is_fresh_owned b n sh : f_owned (a_fl (fresh_arr b n sh)) = true.
Proof. reflexivity. Qed.

(** the array that into_ndarray hands out *)
Lemma into_spec bl rcs vs E x r g a k bs : tok bl rcs vs E -> var E x = Some (k, bs) -> var vs x = Some (r, g) -> var rcs r = Some a ->
  into_ndarray bl rcs (put vs x None) r g = BadUse /\ touch bl a = BadUse \/
  exists bl' rcs' c, into_ndarray bl rcs (put vs x None) r g = Done (bl', rcs', c) /\
    length rcs' = length rcs /\
    (forall s, held (put vs x None) s = true \/ In s (saved g) -> var rcs' s = var rcs s) /\
    (forall s b, var rcs' s = Some b -> var rcs s = Some b) /\
    sound bl' rcs' /\
    (forall b n, var bl b = Some n -> var bl' b = Some n) /\
    (c = a /\ bl' = bl /\ (forall s, var rcs' s <> None -> s <> r) \/
     c = fresh_arr (length bl) (prod (a_shape a)) (a_shape a) /\ bl' = bl ++ [Some (prod (a_shape a))] /\ rcs' = rcs).
Proof.
  intros T TV VX VR. unfold into_ndarray, look. rewrite VR. cbn [obind].
  destruct (held (put vs x None) r || mem r (saved g)) eqn:SH.
  - unfold touch. destruct (var bl (a_blk a)) as [n|] eqn:VB; cbn [obind]; [|auto].
    right. unfold new_block. eexists _, _, _. split; [reflexivity|]. split; [reflexivity|].
    split; [auto|]. split; [auto|]. split; [apply sound_more, (tk_sound _ _ _ _ T)|].
    split; [intros; now apply var_app_old|auto].
  - right. apply orb_false_iff in SH as [S1 S2].
    eexists _, _, _. split; [reflexivity|]. split; [apply length_put|]. split.
    { intros s H. apply var_put_other. intros <-. destruct H as [H|H]; [congruence|].
      apply mem_In in H. congruence. }
    split; [intros s b H; now apply var_put_same in H|].
    split; [apply sound_forget, (tk_sound _ _ _ _ T)|]. split; [auto|].
    left. split; [reflexivity|]. split; [reflexivity|]. intros s N ->.
    apply N. rewrite var_put, Nat.eqb_refl. destruct (r <? length rcs); reflexivity.
Qed.

Lemma var_put_here {A} (l : list (option A)) x v w : var l x = Some w -> var (put l x v) x = v.
Proof. intros H. rewrite var_put, Nat.eqb_refl. apply var_lt in H. apply Nat.ltb_lt in H. now rewrite H. Qed.

Ltac ttyped O :=
  match goal with
  | T : match var ?E ?x with _ => _ end = Some _ |- _ =>
      let V := fresh "TV" in
      destruct (var E x) as [[k bs]|] eqn:V; [|discriminate];
      let r := fresh "r" in let g := fresh "g" in let H := fresh "VX" in
      let a := fresh "a" in let H2 := fresh "VR" in let H3 := fresh "SV" in
      destruct (tok_typed _ _ _ _ _ _ _ O V) as (r & g & H & (a & H2) & H3)
  end.

Lemma tok_regraph bl rcs vs E x r g g' : tok bl rcs vs E -> var vs x = Some (r, g) -> incl (saved g') (saved g) ->
  tok bl rcs (put vs x (Some (r, g'))) E.
Proof.
  intros [L D H S] V I. split; auto.
  - now rewrite length_put.
  - intros y. rewrite var_put. destruct (x =? y) eqn:Q; [|apply D]. apply Nat.eqb_eq in Q as <-.
    pose proof (var_lt _ _ _ V) as LT. apply Nat.ltb_lt in LT. rewrite LT. split; [discriminate|].
    intros N. apply D in N. congruence.
  - intros s Q. apply H. apply held_spec in Q as (y & r' & g2 & Y & Q). apply held_spec.
    destruct (Nat.eq_dec x y) as [<-|N].
    + rewrite (var_put_here _ _ _ _ V) in Y. injection Y as <- <-. exists x, r, g. split; auto.
      destruct Q; auto.
    + rewrite var_put_other in Y by auto. eauto 6.
Qed.

(** the state after an array has been taken out of a tensor and wrapped again *)
Lemma tok_rewrap bl rcs vs E x k bs r g a c v bl' rcs' g' : tok bl rcs vs E -> var E x = Some (k, bs) ->
  var vs x = Some (r, g) -> var rcs r = Some a ->
  (forall s, held (put vs x None) s = true \/ In s (saved g) -> var rcs' s = var rcs s) ->
  (forall s b, var rcs' s = Some b -> var rcs s = Some b) ->
  sound bl' rcs' ->
  (forall b n, var bl b = Some n -> var bl' b = Some n) ->
  (c = a /\ bl' = bl /\ (forall s, var rcs' s <> None -> s <> r) \/
   c = fresh_arr (length bl) (prod (a_shape a)) (a_shape a) /\ bl' = bl ++ [Some (prod (a_shape a))] /\ rcs' = rcs) ->
  a_blk v = a_blk c -> a_off v = a_off c -> a_cap v = 0 \/ a_cap v = a_cap c -> f_owned (a_fl v) = f_owned (a_fl c) ->
  incl (saved g') (saved g) ->
  tok bl' (rcs' ++ [Some v]) (put vs x None ++ [Some (length rcs', g')]) (put E x None ++ [Some (k, [])]).
Proof.
  intros T TE VX VR K1 K2 S B C VB VO VC VF SG.
  pose proof (tk_sound _ _ _ _ T) as S0.
  apply tok_push.
  - rewrite !length_put. apply (tk_len _ _ _ _ T).
  - intros y. rewrite !var_put, (tk_len _ _ _ _ T). destruct (x =? y); [|apply (tk_dom _ _ _ _ T)].
    destruct (x <? length E); tauto.
  - intros s H. rewrite K1 by auto. apply held_kill in H. now apply (tk_rc _ _ _ _ T).
  - destruct (f_owned (a_fl c)) eqn:FC; [|now apply sound_push_view].
    destruct C as [(-> & -> & N)|(-> & -> & ->)].
    + destruct (so_own _ _ S0 r a VR FC) as (Z & n & V & C). apply sound_push_owner with (n := n); auto.
      * congruence.
      * now rewrite VB.
      * destruct VC as [VC|VC]; auto. destruct C as [C|C]; [left|right]; congruence.
      * intros s b H F Q. apply (N s); [congruence|]. eapply (so_uniq _ _ S0 s r); eauto. congruence.
    + apply sound_push_owner with (n := prod (a_shape a)); auto.
      * rewrite VB. cbn. now rewrite var_app, Nat.eqb_refl.
      * intros s b H F Q. destruct (so_own _ _ S0 s b H F) as (_ & n & V & _). apply var_lt in V.
        rewrite VB in Q. cbn in Q. lia.
  - intros s I. apply SG in I. rewrite K1 by auto.
    destruct (tok_typed _ _ _ _ _ _ _ T TE) as (r' & g2 & V & _ & H).
    rewrite VX in V. injection V as <- <-. apply (H s I).
Qed.

Lemma tensor_step_ok bl rcs vs E i E' : tok bl rcs vs E -> tensor_tstep E i = Some E' ->
  match tensor_step (bl, rcs, vs) i with
  | Done (bl', rcs', vs') => tok bl' rcs' vs' E'
  | Panicked | BadUse => True
  | BadFree | NoVar => False
  end.
Proof.
  intros O T. pose proof O as [L D H S]. destruct i; cbn [tensor_tstep] in T; cbn [tensor_step new_block].
  - injection T as <-. apply tok_push; auto. now apply sound_new.
  - ttyped O. destruct k; try discriminate. destruct (unborrowed E x); [|discriminate]. injection T as <-.
    unfold look. rewrite VX. cbn [obind].
    assert (O' : tok bl rcs (put vs x (Some (r, if b then if is_none g then GAcc else g else GNone))) E).
    { apply tok_regraph with (g := g); auto. destruct b; [destruct (is_none g)|]; intros s; cbn; tauto. }
    destruct (settle_tok _ _ _ _ O') as (bl' & rcs' & -> & O2 & _). exact O2.
  - ttyped O. destruct k; try discriminate. injection T as <-.
    unfold look. rewrite VX. cbn [obind]. rewrite VR. cbn [obind].
    destruct (apply_shape ByRef a o) as [v| |] eqn:A; cbn [of_res obind]; auto.
    apply shape_byref in A as [_ A]. apply tok_push; auto.
    + now apply sound_push_view.
    + rewrite shape_graph_saved. exact SV.
  - ttyped O. destruct k; try discriminate. destruct (unborrowed E x); [|discriminate]. injection T as <-.
    unfold look. rewrite VX. cbn [obind].
    destruct (into_spec bl rcs vs E x r g a _ _ O TV VX VR) as [[-> _]|(bl' & rcs' & c & -> & _ & K1 & K2 & S' & B & C)];
      cbn [obind]; auto.
    destruct (apply_shape ByValue c o) as [v| |] eqn:A; cbn [of_res obind new_tensor]; auto.
    apply shape_byvalue in A as (A1 & A2 & A3 & A4).
    assert (O' : tok bl' (rcs' ++ [Some v]) (put vs x None ++ [Some (length rcs', shape_graph o g)]) (put E x None ++ [Some (KArray, [])])).
    { eapply (tok_rewrap bl rcs vs E x KArray bs r g a c); eauto. rewrite shape_graph_saved. apply incl_refl. }
    destruct (settle_tok _ _ _ _ O') as (bl2 & rcs2 & -> & O2 & _). exact O2.
  - ttyped O. destruct k; try discriminate. injection T as <-.
    unfold look. rewrite VX. cbn [obind]. rewrite VR. cbn [obind]. unfold touch.
    destruct (var bl (a_blk a)); cbn [obind]; auto. apply tok_push; auto; [now apply sound_new|].
    rewrite pass_saved. exact SV.
  - ttyped O. destruct k; try discriminate. 
    destruct (var E y) as [[k' bs']|] eqn:TV'; [|discriminate].
    destruct (tok_typed _ _ _ _ _ _ _ O TV') as (r' & g' & VX' & (a' & VR') & SV').
    destruct k'; try discriminate. injection T as <-.
    unfold look. rewrite VX. cbn [obind]. rewrite VX'. cbn [obind].
    destruct (touch_all_cases bl rcs [r; r']) as [Q|Q]; [|rewrite Q; cbn [obind]; auto..].
    + intros s [<-|[<-|[]]]; eauto.
    + apply tok_push; auto; [now apply sound_new|].
      intros s I. apply bin_saved in I as [->|[->|[I|I]]]; eauto.
  - ttyped O. destruct k; try discriminate. destruct (unborrowed E x); [|discriminate]. injection T as <-.
    unfold look. rewrite VX. cbn [obind].
    destruct (into_spec bl rcs vs E x r g a _ _ O TV VX VR) as [[-> _]|(bl' & rcs' & c & -> & _ & K1 & K2 & S' & B & C)];
      cbn [obind new_tensor]; auto.
    assert (O' : tok bl' (rcs' ++ [Some c]) (put vs x None ++ [Some (length rcs', GNone)]) (put E x None ++ [Some (KVec, [])])).
    { pose proof (tok_rewrap bl rcs vs E x KArray bs r g a c c bl' rcs' GNone O TV VX VR K1 K2 S' B C) as Q.
      destruct Q as [Q1 Q2 Q3 Q4]; auto; [intros s []|]. split; auto.
      - rewrite !app_length in *. exact Q1.
      - intros y. rewrite Q2, !var_app. destruct (y =? length (put E x None)); [split; discriminate|tauto]. }
    destruct (settle_tok _ _ _ _ O') as (bl2 & rcs2 & -> & O2 & _). exact O2.
  - ttyped O. injection T as <-. unfold look. rewrite VX. cbn [obind fst].
    destruct (touch_all_cases bl rcs [r]) as [Q|Q]; [|rewrite Q; cbn [obind]; auto..].
    intros s [<-|[]]; eauto.
  - ttyped O. destruct k; try discriminate. injection T as <-. unfold look. rewrite VX. cbn [obind snd].
    destruct (touch_all_cases bl rcs (reads g)) as [Q|Q]; [|rewrite Q; cbn [obind]; auto..].
    intros s I. apply SV. now apply reads_saved.
  - ttyped O. destruct (unborrowed E x); [|discriminate]. injection T as <-. unfold look. rewrite VX. cbn [obind].
    assert (O' : tok bl rcs (put vs x None) (put E x None)).
    { split; auto.
      - now rewrite !length_put.
      - intros y. rewrite !var_put, L. destruct (x =? y); [|apply D]. destruct (x <? length E); tauto.
      - intros s Q. apply held_kill in Q. auto. }
    destruct (settle_tok _ _ _ _ O') as (bl2 & rcs2 & -> & O2 & _). exact O2.
Qed.

(** ** Memory a graph needs *)
Definition rooted (rcs : list (option arr)) (vs : list (option tensor)) (E : typing) : Prop :=
  (forall x r g k bs a, var vs x = Some (r, g) -> var E x = Some (k, bs) -> var rcs r = Some a ->
     f_owned (a_fl a) = true \/
     exists y r' g' b, In y bs /\ var vs y = Some (r', g') /\ var rcs r' = Some b /\
       f_owned (a_fl b) = true /\ a_blk b = a_blk a) /\
  (forall x r g s a, var vs x = Some (r, g) -> In s (saved g) -> var rcs s = Some a -> f_owned (a_fl a) = true).

Lemma rooted_rcs rcs rcs' vs E : rooted rcs vs E -> (forall r, held vs r = true -> var rcs' r = var rcs r) ->
  rooted rcs' vs E.
Proof.
  intros [A B] K. split.
  - intros x r g k bs a V T R. rewrite K in R by (apply held_spec; eauto 6).
    destruct (A x r g k bs a V T R) as [F|(y & r' & g' & b & I & Y & W & F)]; auto.
    right. exists y, r', g', b. split; auto. split; auto. split; auto. rewrite K; auto. apply held_spec. eauto 6.
  - intros x r g s a V I R. rewrite K in R by (apply held_spec; eauto 6). eauto.
Qed.

Lemma rooted_kill rcs vs E x : unborrowed E x = true -> rooted rcs vs E -> rooted rcs (put vs x None) (put E x None).
Proof.
  intros U [A B]. split.
  - intros y r g k bs a V T R. apply var_put_same in V as [N V]. apply var_put_same in T as [_ T].
    destruct (A y r g k bs a V T R) as [F|(z & r' & g' & b & I & Z & W)]; auto.
    right. exists z, r', g', b. split; auto. split; auto. rewrite var_put_other; auto.
    intros ->. now apply (unborrowed_spec _ _ _ _ _ U T).
  - intros y r g s a V. apply var_put_same in V as [N V]. eauto.
Qed.

Lemma rooted_push rcs vs E a g k bs : length vs = length E -> (forall r, held vs r = true -> exists b, var rcs r = Some b) ->
  rooted rcs vs E ->
  (f_owned (a_fl a) = true \/
   exists y r' g' b, In y bs /\ var vs y = Some (r', g') /\ var rcs r' = Some b /\ f_owned (a_fl b) = true /\ a_blk b = a_blk a) ->
  (forall s, In s (saved g) -> exists b, var rcs s = Some b /\ f_owned (a_fl b) = true) ->
  rooted (rcs ++ [Some a]) (vs ++ [Some (length rcs, g)]) (E ++ [Some (k, bs)]).
Proof.
  intros L H [A B] N G. 
  assert (OLD : forall r b, held vs r = true -> var (rcs ++ [Some a]) r = Some b -> var rcs r = Some b).
  { intros r b Q V. destruct (H r Q) as (c & C). rewrite (var_app_old _ _ _ _ C) in V. congruence. }
  split.
  - intros x r g' k' bs' b V T R. rewrite var_app in V. rewrite var_app in T. rewrite L in V. destruct (x =? length E).
    + injection V as <- <-. injection T as <- <-. rewrite var_app, Nat.eqb_refl in R. injection R as <-.
      destruct N as [N|(y & r' & g2 & c & I & Y & W & N)]; auto.
      right. exists y, r', g2, c. split; auto. split; [now apply var_app_old|]. split; [now apply var_app_old|auto].
    + apply OLD in R; [|apply held_spec; eauto 6].
      destruct (A x r g' k' bs' b V T R) as [F|(y & r' & g2 & c & I & Y & W & N')]; auto.
      right. exists y, r', g2, c. split; auto. split; [now apply var_app_old|]. split; [now apply var_app_old|auto].
  - intros x r g' s b V I R. rewrite var_app in V. destruct (x =? length vs).
    + injection V as <- <-. destruct (G s I) as (c & C & F). rewrite (var_app_old _ _ _ _ C) in R. congruence.
    + apply OLD in R; [|apply held_spec; eauto 6]. eauto.
Qed.

Lemma rooted_touch bl rcs vs E x r g : tok bl rcs vs E -> rooted rcs vs E -> var vs x = Some (r, g) ->
  forall s, s = r \/ In s (saved g) -> exists a, var rcs s = Some a /\ touch bl a = Done tt.
Proof.
  intros O [A B] V s H. pose proof (tk_sound _ _ _ _ O) as S.
  assert (exists a, var rcs s = Some a) as (a & R).
  { apply (tk_rc _ _ _ _ O). apply held_spec. exists x, r, g. tauto. }
  exists a. split; auto. unfold touch.
  assert (OWN : forall s b, var rcs s = Some b -> f_owned (a_fl b) = true -> exists n, var bl (a_blk b) = Some n).
  { intros s' b R' F. destruct (so_own _ _ S s' b R' F) as (_ & n & W & _). eauto. }
  destruct H as [->|I].
  - destruct (var E x) as [[k bs]|] eqn:T.
    + destruct (A x r g k bs a V T R) as [F|(y & r' & g' & b & _ & _ & W & F & Q)].
      * destruct (OWN _ _ R F) as (n & ->). reflexivity.
      * destruct (OWN _ _ W F) as (n & N). rewrite Q in N. rewrite N. reflexivity.
    + apply (tk_dom _ _ _ _ O) in T. congruence.
  - destruct (OWN _ _ R (B _ _ _ _ _ V I R)) as (n & ->). reflexivity.
Qed.

Lemma touch_all_done bl rcs l : (forall s, In s l -> exists a, var rcs s = Some a /\ touch bl a = Done tt) ->
  touch_all bl rcs l = Done tt.
Proof.
  induction l as [|r l IH]; intros H; cbn [touch_all]; auto.
  destruct (H r (or_introl eq_refl)) as (a & V & W). unfold look. rewrite V. cbn [obind]. rewrite W. cbn [obind].
  apply IH. intros s I. apply H. now right.
Qed.

(** consume only tensors with a 'static type; let no view be an operand of an operation
    whose graph node keeps its operands *)
Definition views_not_kept (E : typing) (i : tinstr) : bool :=
  match i with
  | TMove x _ | TInto x => is_static E x
  | TBin BAdd _ _ _ => true
  | TBin _ x y _ => is_static E x && is_static E y
  | _ => true
  end.

Lemma static_rooted rcs vs E x r g a : rooted rcs vs E -> var vs x = Some (r, g) -> var rcs r = Some a ->
  is_static E x = true -> f_owned (a_fl a) = true.
Proof.
  intros [A _] V R S. unfold is_static in S. destruct (var E x) as [[k [|y bs]]|] eqn:T; try discriminate.
  destruct (A x r g k [] a V T R) as [F|(y & r' & g' & b & [] & _)]. exact F.
Qed.

Lemma bin_saved_kept o l r g g' s : In s (saved (bin_graph o l r g g')) ->
  (o <> BAdd /\ (s = l \/ s = r)) \/ In s (saved g) \/ In s (saved g').
Proof.
  unfold bin_graph. destruct (is_none g && is_none g'); cbn; [tauto|].
  destruct o; cbn; rewrite in_app_iff; intros H; repeat destruct H as [H|H]; auto; left; split; auto; discriminate.
Qed.

Lemma tensor_step_rooted bl rcs vs E i E' : tok bl rcs vs E -> rooted rcs vs E ->
  views_not_kept E i = true -> tensor_tstep E i = Some E' ->
  match tensor_step (bl, rcs, vs) i with
  | Done (_, rcs', vs') => rooted rcs' vs' E'
  | BadUse => False
  | _ => True
  end.
Proof.
  intros O A X T. pose proof O as [L D H S].
  assert (HK : forall x s, held (put vs x None) s = true -> exists b, var rcs s = Some b).
  { intros x s Q. apply held_kill in Q. auto. }
  assert (LK : forall x, length (put vs x None) = length (put E x None)) by (intros; now rewrite !length_put).
  assert (SAV : forall x r g s, var vs x = Some (r, g) -> In s (saved g) -> exists b, var rcs s = Some b /\ f_owned (a_fl b) = true).
  { intros x r g s V I. destruct (H s) as (b & W); [apply held_spec; eauto 6|].
    exists b. split; auto. eapply (proj2 A); eauto. }
  destruct i; cbn [tensor_tstep] in T; cbn [tensor_step new_block]; cbn [views_not_kept] in X.
  - injection T as <-. apply rooted_push; auto. intros s [].
  - ttyped O. destruct k; try discriminate. destruct (unborrowed E x) eqn:U; [|discriminate]. injection T as <-.
    unfold look. rewrite VX. cbn [obind].
    set (g' := if b then if is_none g then GAcc else g else GNone).
    assert (SG : incl (saved g') (saved g)) by (unfold g'; destruct b; [destruct (is_none g)|]; intros s; cbn; tauto).
    assert (O' : tok bl rcs (put vs x (Some (r, g'))) E) by (apply tok_regraph with (g := g); auto).
    destruct (settle_tok _ _ _ _ O') as (bl' & rcs' & -> & _ & _ & K & _).
    apply rooted_rcs with (rcs := rcs); auto. destruct A as [A B]. split.
    + intros y r1 g1 k1 bs1 a1 V1 T1 R1.
      assert (exists g2, var vs y = Some (r1, g2)) as (g2 & V2).
      { destruct (Nat.eq_dec x y) as [<-|N].
        - rewrite (var_put_here _ _ _ _ VX) in V1. injection V1 as <- <-. eauto.
        - rewrite var_put_other in V1 by auto. eauto. }
      destruct (A y r1 g2 k1 bs1 a1 V2 T1 R1) as [F|(z & r3 & g3 & b3 & I & Z & W)]; auto.
      right. destruct (Nat.eq_dec x z) as [<-|N].
      * exists x, r3, g', b3. split; auto. split; auto. rewrite (var_put_here _ _ _ _ VX). congruence.
      * exists z, r3, g3, b3. split; auto. split; auto. rewrite var_put_other; auto.
    + intros y r1 g1 s a1 V1 I R1. destruct (Nat.eq_dec x y) as [<-|N].
      * rewrite (var_put_here _ _ _ _ VX) in V1. injection V1 as <- <-. apply SG in I. eauto.
      * rewrite var_put_other in V1 by auto. eauto.
  - ttyped O. destruct k; try discriminate. injection T as <-.
    unfold look. rewrite VX. cbn [obind]. rewrite VR. cbn [obind]. pose proof (calm_shape ByRef a o) as Q.
    destruct (apply_shape ByRef a o) as [v| |] eqn:P; cbn [of_res obind]; auto.
    apply shape_byref in P as [P _]. apply rooted_push; auto.
    + right. cbn [a_blk lifetime_cast]. rewrite P.
      destruct (proj1 A x r g KArray bs a VX TV VR) as [F|(y & r' & g' & b & I & Y & W)].
      * exists x, r, g, a. cbn. auto 6.
      * exists y, r', g', b. cbn. auto 6.
    + rewrite shape_graph_saved. eauto.
  - ttyped O. destruct k; try discriminate. destruct (unborrowed E x) eqn:U; [|discriminate]. injection T as <-.
    unfold look. rewrite VX. cbn [obind].
    assert (FA : f_owned (a_fl a) = true) by (eapply static_rooted; eauto).
    destruct (into_spec bl rcs vs E x r g a _ _ O TV VX VR) as [[_ Q]|(bl' & rcs' & c & -> & _ & K1 & K2 & S' & B & C)].
    { destruct (rooted_touch _ _ _ _ _ _ _ O A VX r (or_introl eq_refl)) as (a' & R' & W). 
      rewrite VR in R'. injection R' as <-. congruence. }
    cbn [obind]. pose proof (calm_shape ByValue c o) as Q.
    destruct (apply_shape ByValue c o) as [v| |] eqn:P; cbn [of_res obind new_tensor]; auto.
    apply shape_byvalue in P as (A1 & A2 & A3 & A4).
    assert (O' : tok bl' (rcs' ++ [Some v]) (put vs x None ++ [Some (length rcs', shape_graph o g)]) (put E x None ++ [Some (KArray, [])])).
    { eapply (tok_rewrap bl rcs vs E x KArray bs r g a c); eauto. rewrite shape_graph_saved. apply incl_refl. }
    destruct (settle_tok _ _ _ _ O') as (bl2 & rcs2 & -> & _ & _ & K & _).
    apply rooted_rcs with (rcs := rcs' ++ [Some v]); auto. apply rooted_push; auto.
    + intros s Q2. rewrite K1 by auto. now apply (HK x).
    + apply rooted_rcs with (rcs := rcs); [now apply rooted_kill|]. auto.
    + left. rewrite A4. destruct C as [(-> & _)|(-> & _)]; auto.
    + rewrite shape_graph_saved. intros s I. rewrite K1 by auto. eauto.
  - ttyped O. destruct k; try discriminate. injection T as <-.
    unfold look. rewrite VX. cbn [obind]. rewrite VR. cbn [obind].
    destruct (rooted_touch _ _ _ _ _ _ _ O A VX r (or_introl eq_refl)) as (a' & R' & W). 
    rewrite VR in R'. injection R' as <-. rewrite W. cbn [obind]. apply rooted_push; auto.
    rewrite pass_saved. eauto.
  - ttyped O. destruct k; try discriminate. 
    destruct (var E y) as [[k' bs']|] eqn:TV'; [|discriminate].
    destruct (tok_typed _ _ _ _ _ _ _ O TV') as (r' & g' & VX' & (a' & VR') & SV').
    destruct k'; try discriminate. injection T as <-.
    unfold look. rewrite VX. cbn [obind]. rewrite VX'. cbn [obind].
    rewrite touch_all_done.
    2:{ intros s [<-|[<-|[]]].
        - exact (rooted_touch _ _ _ _ x r g O A VX r (or_introl eq_refl)).
        - exact (rooted_touch _ _ _ _ y r' g' O A VX' r' (or_introl eq_refl)). }
    cbn [obind]. apply rooted_push; auto.
    intros s I. apply bin_saved_kept in I as [[NA I]|[I|I]]; eauto.
    assert (is_static E x = true /\ is_static E y = true) as [SX SY].
    { destruct o; [congruence|..]; now apply andb_true_iff in X. }
    destruct I as [->| ->]; [exists a|exists a']; (split; [assumption|]).
    + eapply (static_rooted rcs vs E x); eauto.
    + eapply (static_rooted rcs vs E y); eauto.
  - ttyped O. destruct k; try discriminate. destruct (unborrowed E x) eqn:U; [|discriminate]. injection T as <-.
    unfold look. rewrite VX. cbn [obind].
    assert (FA : f_owned (a_fl a) = true) by (eapply static_rooted; eauto).
    destruct (into_spec bl rcs vs E x r g a _ _ O TV VX VR) as [[_ Q]|(bl' & rcs' & c & -> & _ & K1 & K2 & S' & B & C)].
    { destruct (rooted_touch _ _ _ _ _ _ _ O A VX r (or_introl eq_refl)) as (a' & R' & W). 
      rewrite VR in R'. injection R' as <-. congruence. }
    cbn [obind new_tensor].
    pose proof (tok_rewrap bl rcs vs E x KArray bs r g a c c bl' rcs' GNone O TV VX VR K1 K2 S' B C) as O'.
    destruct (settle_tok _ _ _ _ (O' eq_refl eq_refl (or_intror eq_refl) eq_refl ltac:(intros s []))) as (bl2 & rcs2 & -> & _ & _ & K & _).
    apply rooted_rcs with (rcs := rcs' ++ [Some c]); auto. apply rooted_push; auto.
    + intros s Q2. rewrite K1 by auto. now apply (HK x).
    + apply rooted_rcs with (rcs := rcs); [now apply rooted_kill|]. auto.
    + left. destruct C as [(-> & _)|(-> & _)]; auto.
    + intros s [].
  - ttyped O. injection T as <-. unfold look. rewrite VX. cbn [obind fst].
    rewrite touch_all_done; [cbn [obind]; auto|]. intros s [<-|[]]. eapply rooted_touch; eauto.
  - ttyped O. destruct k; try discriminate. injection T as <-. unfold look. rewrite VX. cbn [obind snd].
    rewrite touch_all_done; [cbn [obind]; auto|]. intros s I. apply reads_saved in I. eapply rooted_touch; eauto.
  - ttyped O. destruct (unborrowed E x) eqn:U; [|discriminate]. injection T as <-. unfold look. rewrite VX. cbn [obind].
    assert (O' : tok bl rcs (put vs x None) (put E x None)).
    { split; auto.
      - intros y. rewrite !var_put, L. destruct (x =? y); [|apply D]. destruct (x <? length E); tauto.
      - intros s Q. apply held_kill in Q. auto. }
    destruct (settle_tok _ _ _ _ O') as (bl2 & rcs2 & -> & _ & _ & K & _).
    apply rooted_rcs with (rcs := rcs); auto. now apply rooted_kill.
Qed.

Lemma tensor_checks_cons extra E i p : tensor_checks extra E (i :: p) = true ->
  extra E i = true /\ exists E', tensor_tstep E i = Some E' /\ tensor_checks extra E' p = true.
Proof.
  cbn [tensor_checks]. intros H. apply andb_true_iff in H as [H1 H2]. split; auto.
  destruct (tensor_tstep E i); [eauto|discriminate].
Qed.

Lemma tensor_checks_weak extra : forall p E, tensor_checks extra E p = true -> tensor_checks (fun _ _ => true) E p = true.
Proof.
  induction p as [|i p IH]; intros E H; auto. apply tensor_checks_cons in H as (_ & E' & T & H).
  cbn [tensor_checks]. rewrite T. cbn. auto.
Qed.

Lemma tensor_run_ok : forall p bl rcs vs E, tok bl rcs vs E -> tensor_checks (fun _ _ => true) E p = true ->
  tensor_run (bl, rcs, vs) p <> BadFree /\ tensor_run (bl, rcs, vs) p <> NoVar.
Proof.
  induction p as [|i p IH]; intros bl rcs vs E O C.
  - split; discriminate.
  - apply tensor_checks_cons in C as (_ & E' & T & C). cbn [tensor_run].
    pose proof (tensor_step_ok bl rcs vs E i E' O T) as S.
    destruct (tensor_step (bl, rcs, vs) i) as [[[bl' rcs'] vs']| | | |]; cbn [obind]; try (split; discriminate); try contradiction.
    eapply IH; eauto.
Qed.

Lemma tensor_run_rooted : forall p bl rcs vs E, tok bl rcs vs E -> rooted rcs vs E ->
  tensor_checks views_not_kept E p = true -> tensor_run (bl, rcs, vs) p <> BadUse.
Proof.
  induction p as [|i p IH]; intros bl rcs vs E O A C.
  - discriminate.
  - apply tensor_checks_cons in C as (X & E' & T & C). cbn [tensor_run].
    pose proof (tensor_step_ok bl rcs vs E i E' O T) as S.
    pose proof (tensor_step_rooted bl rcs vs E i E' O A X T) as S2.
    destruct (tensor_step (bl, rcs, vs) i) as [[[bl' rcs'] vs']| | | |]; cbn [obind]; try discriminate; try contradiction.
    eapply IH; eauto.
Qed.
