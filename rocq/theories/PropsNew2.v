(** PropsNew2.v: exactly which nested data the constructor takes. *)
From Coq Require Import List Arith Lia Bool.
From Verif Require Import Base Spec Layout SpecFacts LayoutFacts Views Kernels Access HeapFacts KernelFacts OpFacts AccessFacts
  ViewsFacts2 Chain ChainFacts PropsViews PropsOps EinsumFacts8 Nested PropsNew.
Import ListNotations.
Open Scope res_scope.

(** ** Specification *)
(** all leaves, left to right *)
Fixpoint leaves {T} (d : nest T) : list T := match d with Leaf x => [x] | Node l => flat_map leaves l end.
(** [spine k d sh]: [sh] are the lengths of d, d[0], d[0][0], ... at the k levels of the type *)
Inductive spine {T} : nat -> nest T -> list nat -> Prop :=
| Spine1 l : spine 1 (Node l) [length l]
| SpineS k x l sh : spine (S k) x sh -> spine (S (S k)) (Node (x :: l)) (length (x :: l) :: sh).
(** what is compared: the spine of every child of the outermost level *)
Definition fair {T} (k : nat) (d : nest T) (sh : list nat) : Prop :=
  spine k d sh /\ (2 <= k -> forall c, In c (children d) -> spine (k - 1) c (tl sh)) /\ leaves d <> [].

Lemma typed_children {T} k ks (d : nest T) : typed (k :: ks) d -> exists l, d = Node l /\ Forall (typed ks) l.
Proof. cbn [typed]. destruct k; [intros (l & E & F)|intros (l & E & _ & F)]; eauto. Qed.


Lemma flat_map_mem {T} (ks : list kind) (l : list (nest T)) : (forall d : nest T, typed ks d -> nest_mem ks d = leaves d) -> Forall (typed ks) l -> flat_map (nest_mem ks) l = flat_map leaves l.
Proof. intros IH. induction 1 as [|x l TX F IHl]; [reflexivity|]. cbn [flat_map]. now rewrite (IH x TX), IHl. Qed.
Lemma mem_leaves {T} : forall ks (d : nest T), typed ks d -> nest_mem ks d = leaves d.
Proof.
  induction ks as [|k ks IH]; intros d TY; [destruct TY as (x & ->); reflexivity|]. destruct (typed_children _ _ _ TY) as (l & -> & F). cbn [nest_mem children leaves]. now apply flat_map_mem.
Qed.

Lemma shape_cons {T} k k' ks (l : list (nest T)) : nest_shape (k :: k' :: ks) (Node l) = (x <- vget l 0 ;; s <- nest_shape (k' :: ks) x ;; Ok (length l :: s)).
Proof. reflexivity. Qed.
Lemma shape_spine {T} : forall ks (d : nest T), ks <> [] -> typed ks d ->
  (exists sh, nest_shape ks d = Ok sh /\ spine (length ks) d sh) \/ (nest_shape ks d = Panic /\ forall sh, ~ spine (length ks) d sh).
Proof.
  induction ks as [|k ks IH]; intros d NE TY; [contradiction|]. destruct (typed_children _ _ _ TY) as (l & -> & F).
  destruct ks as [|k' ks]; [left; exists [length l]; split; [reflexivity|constructor]|]. rewrite shape_cons.
  destruct l as [|x l]; [right; split; [reflexivity|]; intros sh H; inversion H|]. cbn [vget nth_error bind]. unfold vget. cbn [nth_error bind].
  inversion F; subst. destruct (IH x ltac:(discriminate) H1) as [(sh & E & S)|[E S]]; rewrite E; cbn [bind]; [left|right].
  - exists (length (x :: l) :: sh). split; [reflexivity|]. cbn [length]. constructor. exact S.
  - split; [reflexivity|]. intros sh H. inversion H; subst. eapply S. eassumption.
Qed.
Lemma spine_unique {T} k (d : nest T) s : spine k d s -> forall s', spine k d s' -> s = s'.
Proof. induction 1 as [l|k x l sh S IH]; intros s' H; inversion H; subst; [reflexivity|]. f_equal. now apply IH. Qed.

Lemma arrs_shape {T} : forall ns (d : nest T), typed (map KArr ns) d -> nest_shape (map KArr ns) d = if forallb (fun n => 0 <? n) (removelast ns) then Ok ns else Panic.
Proof.
  induction ns as [|n ns IH]; intros d TY; [reflexivity|]. destruct TY as (l & -> & L & F). destruct ns as [|n' ns]; [cbn; now rewrite L|].
  change (map KArr (n :: n' :: ns)) with (KArr n :: KArr n' :: map KArr ns). rewrite shape_cons. cbn [removelast forallb].
  destruct l as [|x l]; [cbn in L; subst n; reflexivity|]. unfold vget. cbn [nth_error bind]. inversion F; subst. change (KArr n' :: map KArr ns) with (map KArr (n' :: ns)) in *. rewrite (IH x H1).
  cbn [length]. rewrite (proj2 (Nat.ltb_lt 0 (S (length l)))) by lia. cbn [andb]. destruct (forallb _ _); reflexivity.
Qed.

Lemma flatten_cases {T} m ns : forall d : nest T, repeat KVec m ++ map KArr ns <> [] -> typed (repeat KVec m ++ map KArr ns) d ->
  nest_flatten (repeat KVec m ++ map KArr ns) d = Panic \/ nest_flatten (repeat KVec m ++ map KArr ns) d = Ok (leaves d).
Proof.
  induction m as [|m IH]; intros d NE TY.
  - cbn [repeat app] in *. rewrite <- (mem_leaves _ _ TY). destruct ns as [|n [|n' ns]]; [contradiction|right; reflexivity|]. 
    assert (E : nest_flatten (map KArr (n :: n' :: ns)) d = (s <- nest_shape (map KArr (n :: n' :: ns)) d ;;
      if forallb is_arr (map KArr (n' :: ns)) && (length (nest_mem (map KArr (n :: n' :: ns)) d) =? prod s) then Ok (nest_mem (map KArr (n :: n' :: ns)) d) else Oob)) by reflexivity.
    rewrite E, (arrs_shape _ _ TY). destruct (forallb _ (removelast _)); [right|now left]. cbn [bind].
    rewrite (rect_mem_length _ d (n :: n' :: ns) TY (arrs_rect _ _ TY)) by now rewrite map_length. rewrite Nat.eqb_refl.
    rewrite (proj2 (forallb_forall is_arr (map KArr (n' :: ns)))); [reflexivity|]. intros k I. apply in_map_iff in I as (? & <- & _). reflexivity.
  - cbn [repeat app] in *. destruct (typed_children _ _ _ TY) as (l & -> & F). set (ks := repeat KVec m ++ map KArr ns) in *. destruct ks as [|k' ks'] eqn:EK.
    + right. rewrite <- (mem_leaves _ _ TY). reflexivity.
    + change (nest_flatten (KVec :: k' :: ks') (Node l)) with (ls <- mapM (nest_flatten (k' :: ks')) l ;; Ok (concat ls)). cbn [leaves]. rewrite flat_map_concat_map.
      assert (M : mapM (nest_flatten (k' :: ks')) l = Panic \/ mapM (nest_flatten (k' :: ks')) l = Ok (map leaves l)).
      { clear TY NE. induction F as [|x l TX F IHl]; [now right|]. cbn [mapM map]. destruct (IH x ltac:(discriminate) TX) as [E|E]; rewrite E; cbn [bind]; [now left|].
        destruct IHl as [E'|E']; rewrite E'; cbn [bind]; auto. }
      destruct M as [-> | ->]; cbn [bind]; auto.
Qed.
Lemma flatten_ok {T} m ns : Forall (lt 0) ns -> forall d : nest T, repeat KVec m ++ map KArr ns <> [] -> typed (repeat KVec m ++ map KArr ns) d ->
  nest_flatten (repeat KVec m ++ map KArr ns) d = Ok (leaves d).
Proof.
  intros PN. induction m as [|m IH]; intros d NE TY.
  - cbn [repeat app] in *. rewrite <- (mem_leaves _ _ TY). apply (arrs_flatten ns) with (sh := ns); auto; [intros ->; now apply NE|now apply arrs_rect|].
    clear - PN. induction PN as [|x l H _ IH]; [cbn; lia|]. rewrite prod_cons. now apply Nat.mul_pos_pos.
  - cbn [repeat app] in *. destruct (typed_children _ _ _ TY) as (l & -> & F). set (ks := repeat KVec m ++ map KArr ns) in *. destruct ks as [|k' ks'] eqn:EK.
    + rewrite <- (mem_leaves _ _ TY). reflexivity.
    + change (nest_flatten (KVec :: k' :: ks') (Node l)) with (ls <- mapM (nest_flatten (k' :: ks')) l ;; Ok (concat ls)). cbn [leaves]. rewrite flat_map_concat_map.
      assert (M : mapM (nest_flatten (k' :: ks')) l = Ok (map leaves l)).
      { clear TY NE. induction F as [|x l TX F IHl]; [reflexivity|]. cbn [mapM map]. rewrite (IH x ltac:(discriminate) TX). cbn [bind]. now rewrite IHl. }
      now rewrite M.
Qed.
Lemma leaves_pos {T} m ns : forall d : nest T, typed (repeat KVec m ++ map KArr ns) d -> leaves d <> [] -> Forall (lt 0) ns.
Proof.
  induction m as [|m IH]; intros d TY L; cbn [repeat app] in TY.
  - revert d TY L. induction ns as [|n ns IH]; intros d TY L; [constructor|]. destruct TY as (l & -> & LN & F). destruct l as [|x l]; [contradiction|]. constructor; [cbn in LN; lia|].
    cbn [leaves] in L. assert (X : exists y, In y (x :: l) /\ leaves y <> []).
    { clear F LN. induction (x :: l) as [|y l' IHl]; [contradiction|]. cbn [flat_map] in L. destruct (leaves y) eqn:E; [|exists y; split; [now left|congruence]]. destruct IHl as (z & I & N); [exact L|]. exists z. split; [now right|exact N]. }
    destruct X as (y & I & N). rewrite Forall_forall in F. exact (IH y (F y I) N).
  - destruct TY as (l & -> & F). cbn [leaves] in L. assert (X : exists y, In y l /\ leaves y <> []).
    { clear F. induction l as [|y l' IHl]; [contradiction|]. cbn [flat_map] in L. destruct (leaves y) eqn:E; [|exists y; split; [now left|congruence]]. destruct IHl as (z & I & N); [exact L|]. exists z. split; [now right|exact N]. }
    destruct X as (y & I & N). rewrite Forall_forall in F. exact (IH y (F y I) N).
Qed.

Lemma check_cases {T} ks (d : nest T) sh : vecs_outside ks -> ks <> [] -> typed ks d -> nest_shape ks d = Ok sh ->
  let same := 2 <= length ks -> forall c, In c (children d) -> spine (length ks - 1) c (tl sh) in
  (same /\ check_homogenous ks d = Ok true) \/ (~ same /\ (check_homogenous ks d = Ok false \/ check_homogenous ks d = Panic)).
Proof.
  intros VO NE TY ES same. destruct (typed_children (hd KVec ks) (tl ks) d) as (l & -> & F); [destruct ks; [contradiction|exact TY]|]. 
  destruct ks as [|k ks]; [contradiction|]. destruct ks as [|k' ks]; [left; split; [intros H; cbn in H; lia|destruct k; reflexivity]|]. cbn [tl] in F.
  rewrite shape_cons in ES. destruct l as [|x l]; [discriminate|]. unfold vget in ES. cbn [nth_error bind] in ES.
  apply bind_Ok_inv in ES as (s & ES & E). injection E as <-. cbn [tl children length] in same.
  assert (SX : spine (S (length ks)) x s).
  { inversion F; subst. destruct (shape_spine (k' :: ks) x ltac:(discriminate) H1) as [(s' & E' & S')|[E' _]]; [|congruence]. rewrite ES in E'. injection E' as <-. exact S'. }
  destruct k as [|n].
  - cbn [check_homogenous children]. unfold vget. cbn [nth_error bind]. rewrite ES. cbn [bind].
    assert (Q : forall l' : list (nest T), Forall (typed (k' :: ks)) l' ->
      ((forall c, In c l' -> spine (S (length ks)) c s) /\ allM (fun v => s' <- nest_shape (k' :: ks) v ;; Ok (if list_eq_dec Nat.eq_dec s' s then true else false)) l' = Ok true) \/
      (~ (forall c, In c l' -> spine (S (length ks)) c s) /\ (allM (fun v => s' <- nest_shape (k' :: ks) v ;; Ok (if list_eq_dec Nat.eq_dec s' s then true else false)) l' = Ok false \/
        allM (fun v => s' <- nest_shape (k' :: ks) v ;; Ok (if list_eq_dec Nat.eq_dec s' s then true else false)) l' = Panic))).
    { induction 1 as [|y l' TYy _ IHl]; [left; split; [intros c []|reflexivity]|]. cbn [allM].
      destruct (shape_spine (k' :: ks) y ltac:(discriminate) TYy) as [(sy & Ey & Sy)|[Ey Ny]]; rewrite Ey; cbn [bind].
      - destruct (list_eq_dec Nat.eq_dec sy s) as [->|N].
        + destruct IHl as [[A B]|[A B]]; [left|right].
          * split; [|exact B]. intros c [<-|I]; auto.
          * split; [|exact B]. intros H. apply A. intros c I. apply H. now right.
        + right. split; [|now left]. intros H. apply N. eapply spine_unique; [exact Sy|]. apply H. now left.
      - right. split; [|now right]. intros H. eapply Ny. apply (H y). now left. }
    destruct (Q (x :: l) F) as [[A B]|[A B]]; [left|right]; (split; [|exact B]).
    + intros _. exact A.
    + intros H. apply A. apply H. lia.
  - left. split; [|reflexivity]. intros _ c I.
    assert (AR : exists ns, k' :: ks = map KArr ns).
    { destruct VO as ([|m] & ns & E); [|discriminate]. cbn [repeat app] in E. destruct ns as [|n0 ns]; [discriminate|]. injection E as _ E. eauto. }
    destruct AR as (ns & EN). rewrite EN in F, ES. rewrite Forall_forall in F. pose proof (F c I) as TC. pose proof (F x (or_introl eq_refl)) as TX. rewrite (arrs_shape ns x TX) in ES.
    destruct (forallb _ (removelast ns)) eqn:B; [|discriminate]. injection ES as <-.
    destruct (shape_spine (map KArr ns) c) as [(s' & E' & S')|[E' _]]; [rewrite <- EN; discriminate|exact TC| |]; rewrite (arrs_shape ns c TC), B in E'; [|discriminate].
    injection E' as <-. rewrite <- EN in S'. exact S'.
Qed.

(** ** C78.  Data of any nesting of Vecs around fixed-size arrays is accepted exactly when the
    lengths along first children are the same for every child of the outermost level and there
    is at least one element.  The array then has these lengths as shape and all leaves as
    buffer. *)
Theorem C78_accepts : forall T (h : heap T) ks d, vecs_outside ks -> ks <> [] -> typed ks d ->
  (forall sh, fair (length ks) d sh -> nd_new h ks d = Ok (h ++ [Some (leaves d)], fresh_arr (length h) (length (leaves d)) sh)) /\
  ((forall sh, ~ fair (length ks) d sh) -> nd_new h ks d = Panic).
Proof.
  intros T h ks d VO NE TY. unfold nd_new. destruct (shape_spine ks d NE TY) as [(s & ES & SP)|[ES SP]].
  - destruct (check_cases ks d s VO NE TY ES) as [[SM EC]|[SM EC]].
    + rewrite EC. cbn [bind guard]. rewrite ES. cbn [bind]. split.
      * intros sh (S1 & _ & L). rewrite <- (spine_unique _ _ _ SP _ S1). destruct VO as (m & ns & ->). rewrite (flatten_ok m ns (leaves_pos m ns d TY L) d NE TY). cbn [bind].
        destruct (leaves d) as [|x l] eqn:E; [contradiction|]. reflexivity.
      * intros H. assert (L : leaves d = []). { destruct (leaves d) eqn:E; [reflexivity|]. exfalso. apply (H s). split; [exact SP|]. split; [exact SM|congruence]. }
        destruct VO as (m & ns & ->). destruct (flatten_cases m ns d NE TY) as [E|E]; rewrite E; [reflexivity|]. rewrite L. reflexivity.
    + split; [|intros _; destruct EC as [-> | ->]; reflexivity]. intros sh (S1 & S2 & _). exfalso. apply SM. rewrite (spine_unique _ _ _ SP _ S1). exact S2.
  - split; [intros sh (S1 & _); exfalso; eapply SP; eassumption|]. intros _.
    assert (C : check_homogenous ks d = Ok true \/ check_homogenous ks d = Ok false \/ check_homogenous ks d = Panic).
    { destruct ks as [|[|n] [|k' ks]]; auto. destruct (typed_children _ _ _ TY) as (l & -> & F). cbn [check_homogenous children]. destruct l as [|x l]; [right; right; reflexivity|].
      unfold vget. cbn [nth_error bind]. inversion F; subst. destruct (shape_spine (k' :: ks) x ltac:(discriminate) H1) as [(sx & Ex & Sx)|[Ex Nx]]; rewrite Ex; cbn [bind]; [|auto].
      exfalso. eapply SP. cbn [length]. constructor. exact Sx. }
    destruct C as [-> | [-> | ->]]; cbn [bind guard]; [now rewrite ES|reflexivity|reflexivity].
Qed.
Print Assumptions C78_accepts.

(** the element at an index is the leaf at its row-major rank, counted over all leaves; ranks
    past the last leaf are outside the buffer *)
Theorem C78_elements : forall T (h : heap T) k d sh, fair k d sh -> 
  let h' := h ++ [Some (leaves d)] in let r := fresh_arr (length h) (length (leaves d)) sh in
  (forall idx, in_range idx sh -> get h' r idx = match nth_error (leaves d) (rank idx sh) with Some x => Ok x | None => Oob end) /\
  (0 < prod sh -> ((forall idx, in_range idx sh -> exists x, get h' r idx = Ok x) <-> prod sh <= length (leaves d))) /\
  (rect sh d -> forall idx, in_range idx sh -> get h' r idx = lookup idx d).
Proof.
  intros T h k d sh FA h' r.
  assert (G : forall idx, in_range idx sh -> get h' r idx = match nth_error (leaves d) (rank idx sh) with Some x => Ok x | None => Oob end).
  { intros idx I. unfold get, h', r. cbn [fresh_arr a_blk a_off a_stride plus]. rewrite stride_from_shape_rm, <- rank_dot by exact I. now rewrite load_app_new. }
  split; [exact G|]. split.
  - intros P. split.
    + intros H. destruct (unrank_in_range (prod sh - 1) sh ltac:(lia)) as [I R]. destruct (H _ I) as (x & E). rewrite (G _ I), R in E. destruct (nth_error (leaves d) (prod sh - 1)) eqn:N; [|discriminate].
      assert (nth_error (leaves d) (prod sh - 1) <> None) by congruence. apply nth_error_Some in H0. lia.
    + intros L idx I. rewrite (G idx I). pose proof (rank_lt _ _ I) as RL. destruct (nth_error (leaves d) (rank idx sh)) eqn:N; [eauto|]. apply nth_error_None in N. lia.
  - intros R idx I. rewrite (G idx I). clear FA G h' r. revert d idx I R. induction sh as [|n sh IH]; intros d idx I R.
    + destruct R as (x & ->). inversion I; subst. reflexivity.
    + destruct R as (l & -> & L & F). inversion I as [|i ? idx' ? Hi I' E1 E2]; subst. cbn [leaves rank lookup].
      destruct (nth_error l i) as [c|] eqn:N; [|apply nth_error_None in N; lia]. pose proof (nth_error_In _ _ N) as IN. rewrite Forall_forall in F.
      rewrite <- (IH c idx' I' (F c IN)). pose proof (rank_lt _ _ I') as RL.
      assert (LC : forall c : nest T, rect sh c -> length (leaves c) = prod sh).
      { clear. induction sh as [|m sh IH]; intros c R; [destruct R as (x & ->); reflexivity|]. destruct R as (l & -> & L & F). rewrite prod_cons, <- L. cbn [leaves]. clear L. induction F as [|y l R F IHl]; [reflexivity|].
        cbn [flat_map length]. rewrite app_length, (IH y R), IHl. lia. }
      clear IH Hi. revert i N I. induction l as [|y l IHl]; intros [|i] N I; try discriminate.
      * injection N as ->. cbn [flat_map Nat.mul plus]. rewrite nth_error_app1 by (rewrite (LC c); [lia|apply F; now left]). reflexivity.
      * cbn [nth_error] in N. cbn [flat_map]. rewrite nth_error_app2 by (rewrite (LC y) by (apply F; now left); lia). rewrite (LC y) by (apply F; now left).
        replace (S i * prod sh + rank idx' sh - prod sh) with (i * prod sh + rank idx' sh) by lia.
        apply (IHl) with (i := i); auto; [|exact (nth_error_In _ _ N)|]. { intros z Z. apply F. now right. }
        constructor; [|exact I']. assert (nth_error l i <> None) by congruence. now apply nth_error_Some in H.
Qed.
Print Assumptions C78_elements.

(** ** Which types the constructor takes *)
Lemma nested_small ks : (nested 1 ks <-> length ks = 1) /\ (nested 2 ks <-> length ks = 2) /\ (nested 3 ks <-> length ks = 3) /\ (nested 4 ks <-> length ks = 4).
Proof.
  assert (A1 : forall ks, nested 1 ks <-> length ks = 1).
  { intros l. split; [intros H; inversion H; reflexivity|]. destruct l as [|[|n] [|? ?]]; try discriminate; constructor. }
  assert (A2 : forall ks, nested 2 ks <-> length ks = 2).
  { intros l. split; [intros H; inversion H as [| |? I|? ? I| | | | | | | | | | | |]; apply A1 in I; cbn [length]; lia|]. destruct l as [|[|n] l]; try discriminate; cbn [length]; intros E; constructor; apply A1; lia. }
  assert (A3 : forall ks, nested 3 ks <-> length ks = 3).
  { intros l. split; [intros H; inversion H as [| | | |? I|? ? I| | | | | | | | | |]; apply A2 in I; cbn [length]; lia|]. destruct l as [|[|n] l]; try discriminate; cbn [length]; intros E; constructor; apply A2; lia. }
  assert (A4 : forall ks, nested 4 ks <-> length ks = 4).
  { intros l. split; [intros H; inversion H as [| | | | | |? I|? ? I| | | | | | | |]; apply A3 in I; cbn [length]; lia|]. destruct l as [|[|n] l]; try discriminate; cbn [length]; intros E; constructor; apply A3; lia. }
  auto.
Qed.

(** the levels [e], [e+2], ... are Vecs up to the fifth level from the inside, an array *)
Definition zigzag (e : nat) (ks : list kind) : Prop :=
  exists j, length ks = e + 2 * j + 5 /\ (forall i, i < j -> nth_error ks (e + 2 * i) = Some KVec) /\ exists n, nth_error ks (e + 2 * j) = Some (KArr n).
Lemma zigzag_S e k ks : zigzag (S e) (k :: ks) <-> zigzag e ks.
Proof. split; intros (j & L & V & A); exists j; cbn [length plus nth_error] in *; (split; [lia|]; split; assumption). Qed.
Lemma zigzag_arr n ks : zigzag 0 (KArr n :: ks) <-> length ks = 4.
Proof.
  split.
  - intros ([|j] & L & V & A); cbn [length] in L; [lia|]. specialize (V 0 ltac:(lia)). discriminate.
  - intros L. exists 0. cbn [length]. split; [lia|]. split; [lia|]. now exists n.
Qed.
Lemma zigzag_vec ks : zigzag 0 (KVec :: ks) <-> zigzag 1 ks.
Proof.
  split.
  - intros ([|j] & L & V & (n & A)); [discriminate|]. exists j. cbn [length] in L. split; [lia|]. split.
    + intros i I. specialize (V (S i) ltac:(lia)). replace (0 + 2 * S i) with (S (1 + 2 * i)) in V by lia. exact V.
    + exists n. replace (0 + 2 * S j) with (S (1 + 2 * j)) in A by lia. exact A.
  - intros (j & L & V & (n & A)). exists (S j). cbn [length]. split; [lia|]. split.
    + intros [|i] I; [reflexivity|]. replace (0 + 2 * S i) with (S (1 + 2 * i)) by lia. apply V. lia.
    + exists n. replace (0 + 2 * S j) with (S (1 + 2 * j)) by lia. exact A.
Qed.
Lemma zigzag_nil e : ~ zigzag e [].
Proof. intros (j & L & _). cbn [length] in L. lia. Qed.
Lemma nested_big : forall ks, (nested 5 ks <-> zigzag 0 ks) /\ (nested 6 ks <-> zigzag 1 ks).
Proof.
  induction ks as [|k ks [I5 I6]]; [split; (split; [intros H; inversion H|intros H; now apply zigzag_nil in H])|]. split.
  - destruct k as [|n].
    + rewrite zigzag_vec, <- I6. split; [intros H; now inversion H|now constructor].
    + rewrite zigzag_arr. destruct (nested_small ks) as (_ & _ & _ & N4). rewrite <- N4. split; [intros H; now inversion H|now constructor].
  - rewrite zigzag_S, <- I5. split; [intros H; now inversion H|destruct k; now constructor].
Qed.
Lemma nested_range D ks : nested D ks -> 1 <= D <= 8.
Proof. intros H. inversion H; lia. Qed.

(** A type is taken with [D] up to 4 exactly when it has [D] levels.  With [D] from 5 to 8 it is
    taken exactly when, starting at level [D-5] (0 is the outermost), every second level is a Vec
    until an array at the fifth level from the inside.  So types of up to four levels are always
    taken, with one [D].  Of the deeper ones, none with a Vec at the fifth level from the inside
    is taken, in particular no nest of Vecs alone; arrays alone are taken exactly up to eight
    levels. *)
Theorem C78_types : forall ks,
  (forall D, nested D ks -> 1 <= D <= 8) /\
  (forall D, 1 <= D <= 4 -> (nested D ks <-> length ks = D)) /\
  (forall D, 5 <= D <= 8 -> (nested D ks <->
     exists j, length ks = D + 2 * j /\ (forall i, i < j -> nth_error ks (D - 5 + 2 * i) = Some KVec) /\ exists n, nth_error ks (length ks - 5) = Some (KArr n))) /\
  (1 <= length ks <= 4 -> forall D, nested D ks <-> D = length ks) /\
  (5 <= length ks -> nth_error ks (length ks - 5) = Some KVec -> forall D, ~ nested D ks) /\
  (forall ns D, ks = map KArr ns -> (nested D ks <-> 1 <= D <= 8 /\ length ns = D)).
Proof.
  intros ks.
  assert (A : forall D, 1 <= D <= 4 -> (nested D ks <-> length ks = D)).
  { intros D H. destruct (nested_small ks) as (N1 & N2 & N3 & N4). assert (C : D = 1 \/ D = 2 \/ D = 3 \/ D = 4) by lia. destruct C as [-> |[-> |[-> | ->]]]; assumption. }
  assert (B0 : forall D, 5 <= D <= 8 -> (nested D ks <-> zigzag (D - 5) ks)).
  { intros D H. destruct (nested_big ks) as [N5 N6].
    assert (N7 : forall ks, nested 7 ks <-> zigzag 2 ks).
    { intros [|k l]; [split; [intros I; inversion I|intros I; now apply zigzag_nil in I]|]. rewrite zigzag_S, <- (proj2 (nested_big l)). split; [intros I; now inversion I|destruct k; now constructor]. }
    assert (N8 : nested 8 ks <-> zigzag 3 ks).
    { destruct ks as [|k l]; [split; [intros I; inversion I|intros I; now apply zigzag_nil in I]|]. rewrite zigzag_S, <- (N7 l). split; [intros I; now inversion I|destruct k; now constructor]. }
    assert (C : D = 5 \/ D = 6 \/ D = 7 \/ D = 8) by lia. destruct C as [-> |[-> |[-> | ->]]]; cbn [Nat.sub]; auto. }
  assert (B : forall D, 5 <= D <= 8 -> (nested D ks <->
     exists j, length ks = D + 2 * j /\ (forall i, i < j -> nth_error ks (D - 5 + 2 * i) = Some KVec) /\ exists n, nth_error ks (length ks - 5) = Some (KArr n))).
  { intros D H. rewrite (B0 D H). unfold zigzag. split; intros (j & L & V & n & E); exists j; (split; [lia|]; split; [exact V|]; exists n).
    - replace (length ks - 5) with (D - 5 + 2 * j) by lia. exact E.
    - replace (D - 5 + 2 * j) with (length ks - 5) by lia. exact E. }
  assert (R : forall D, nested D ks -> 1 <= D <= 8) by (intros D; apply nested_range).
  split; [exact R|]. split; [exact A|]. split; [exact B|]. split; [|split].
  - intros L D. split; [|intros ->; now apply A]. intros N. specialize (R D N). destruct (le_lt_dec D 4) as [H|H]; [symmetry; apply A; auto; lia|].
    apply B in N as (j & E & _); lia.
  - intros L E D N. specialize (R D N). destruct (le_lt_dec D 4) as [H|H]; [apply A in N; lia|]. apply B in N as (j & _ & _ & n & E'); [congruence|lia].
  - intros ns D ->. rewrite map_length in B. split.
    + intros N. specialize (R D N). split; [lia|]. destruct (le_lt_dec D 4) as [H|H]; [apply A in N; [now rewrite map_length in N|lia]|].
      apply B in N as (j & L & V & _); [|lia]. destruct j as [|j]; [lia|]. specialize (V 0 ltac:(lia)). rewrite nth_error_map in V. destruct (nth_error ns _); discriminate.
    + intros [H L]. destruct (le_lt_dec D 4) as [H'|H']; [apply A; [lia|now rewrite map_length]|]. apply B; [lia|]. exists 0. split; [lia|]. split; [lia|].
      rewrite nth_error_map. destruct (nth_error ns (length ns - 5)) as [n|] eqn:E; [now exists n|]. apply nth_error_None in E. lia.
Qed.
Print Assumptions C78_types.

(** a five-level nest of Vecs is rejected, one with an array outermost is taken; a seven-level
    type can be taken with two values of [D], so it cannot be inferred *)
Example C78_types_ex : (forall D, ~ nested D (repeat KVec 5)) /\ nested 5 (KArr 2 :: repeat KVec 4) /\ nested 6 (KVec :: KArr 2 :: repeat KVec 4) /\
  (let t := KVec :: KVec :: KArr 2 :: repeat KVec 4 in nested 5 t /\ nested 7 t) /\ nested 8 (map KArr [1; 2; 1; 3; 1; 1; 2; 1]) /\ nested 3 [KVec; KArr 2; KVec].
Proof.
  split; [|split; [|split; [|split; [split|split]]]]; [|repeat constructor..]. intros D. apply (C78_types (repeat KVec 5)); cbn; [lia|reflexivity].
Qed.
(** Vec<Vec<Vec>>: the inner lengths are only compared along first children, so this ragged data
    is accepted; the array has shape [2; 2; 1] and the buffer has a fifth element *)
Example C78_ex : let v := fun l => Node (map Leaf l) in let d := Node [Node [v [1]; v [2; 3]]; Node [v [4]; v [5]]] in
  typed [KVec; KVec; KVec] d /\ vecs_outside [KVec; KVec; KVec] /\ fair 3 d [2; 2; 1] /\
  (let '(h, r) := ([Some [1; 2; 3; 4; 5]], fresh_arr 0 5 [2; 2; 1]) in nd_new [] [KVec; KVec; KVec] d = Ok (h, r) /\ get h r [1; 1; 0] = Ok 4 /\ get h r [1; 0; 0] = Ok 3).
Proof.
  intros v d. split; [|split; [exists 3, []; reflexivity|split; [|repeat split]]].
  - unfold d, v. cbn. repeat (eexists; split; [reflexivity|]; repeat constructor); repeat eexists.
  - split; [repeat constructor|]. split; [|discriminate]. intros _ c [<-|[<-|[]]]; repeat constructor.
Qed.
(** with a short inner row the shape is larger than the buffer; a different first row is rejected *)
Example C78_short_ex : let v := fun l => Node (map Leaf l) in
  (let d := Node [Node [v [1; 2]; v [3]]; Node [v [4; 5]; v []]] in exists h r, nd_new [] [KVec; KVec; KVec] d = Ok (h, r) /\ a_shape r = [2; 2; 2] /\ get h r [1; 0; 1] = Oob /\ get h r [1; 0; 0] = Ok 5) /\
  nd_new [] [KVec; KVec; KVec] (Node [Node [v [1; 2]]; Node [v [4]; v [5]]]) = Panic /\ nd_new [] [KVec; KVec] (Node [v [1; 2]; v [3]]) = Panic /\
  nd_new [] [KVec; KArr 2] (Node [v [1; 2]; v [3; 4]]) = Ok ([Some [1; 2; 3; 4]], fresh_arr 0 4 [2; 2]).
Proof. split; [eexists _, _; split; [reflexivity|repeat split]|repeat split]. Qed.
