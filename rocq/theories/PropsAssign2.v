(** PropsAssign2.v: the value every cell ends up with after a compound assignment, and
    exactly when that is the value the reader expects. *)
From Coq Require Import List Arith Lia Bool ZArith.
From Verif Require Import Base Spec Layout SpecFacts LayoutFacts Views ViewsFacts ViewsFacts2 ViewsFacts3
  Kernels Access HeapFacts KernelFacts OpFacts AccessFacts Chain ChainFacts ViewsFacts4 PropsViews PropsOps PropsAssign PropsBcast.
Import ListNotations.
Open Scope res_scope.

(** What cell (b, o) holds once the first [length ws] cells from (b0, o0) on have been
    overwritten by [ws], and nothing else has. *)
Definition now {T} (h : heap T) (b0 o0 : nat) (ws : list T) (b o : nat) : res T :=
  if (b =? b0) && (o0 <=? o) && (o <? o0 + length ws) then
    match nth_error ws (o - o0) with Some v => Ok v | None => Oob end
  else load h b o.

(** [ws] are the first values written: the k-th is [f] applied to what the k-th element
    of [a] and the k-th (broadcast) element of [b] hold after the writes before it. *)
Definition turn {T} (f : T -> T -> res T) (h : heap T) (a b : arr) (ws : list T) (idx : list nat) : res T :=
  x <- now h (a_blk a) (a_off a) ws (a_blk a) (a_off a + dot idx (a_stride a)) ;;
  y <- now h (a_blk a) (a_off a) ws (a_blk b) (a_off b + dot (bidx (a_shape b) idx) (a_stride b)) ;;
  f x y.
Definition turn1 {T} (f : T -> T -> res T) (h : heap T) (a : arr) (c : T) (ws : list T) (idx : list nat) : res T :=
  x <- now h (a_blk a) (a_off a) ws (a_blk a) (a_off a + dot idx (a_stride a)) ;; f x c.
Definition history {T} (next : list T -> list nat -> res T) (sh : list nat) (ws : list T) : Prop :=
  length ws <= prod sh /\
  forall k v, nth_error ws k = Some v -> next (firstn k ws) (unrank k sh) = Ok v.

(** the heap after the writes [ws] *)
Definition patched {T} (h h' : heap T) (b0 o0 : nat) (ws : list T) : Prop :=
  length h = length h' /\ forall b o, load h' b o = now h b0 o0 ws b o.

Section Loop.
  Context {T : Type}.

  Lemma patched_nil (h : heap T) b o : patched h h b o [].
  Proof.
    split; [reflexivity|]. intros b' o'. unfold now. cbn [length]. destruct (_ && _) eqn:E; [|reflexivity].
    apply andb_prop in E as [E E2]. apply andb_prop in E as [_ E1]. apply Nat.leb_le in E1. apply Nat.ltb_lt in E2. lia.
  Qed.

  Lemma patched_snoc (h h1 h2 : heap T) b o ws v : patched h h1 b o ws -> store h1 b (o + length ws) v = Ok h2 ->
    patched h h2 b o (ws ++ [v]).
  Proof.
    intros [L P] S2. split; [rewrite (store_length _ _ _ _ _ S2); exact L|]. intros b' o'.
    rewrite (load_store _ _ _ _ _ S2), P. unfold now. rewrite app_length. cbn [length].
    destruct (Nat.eqb_spec b' b) as [->|NB]; cbn [andb]; [|reflexivity].
    destruct (Nat.eqb_spec o' (o + length ws)) as [->|NO].
    - rewrite (proj2 (Nat.leb_le o (o + length ws))), (proj2 (Nat.ltb_lt (o + length ws) (o + (length ws + 1)))) by lia. cbn [andb].
      replace (o + length ws - o) with (length ws) by lia. now rewrite nth_error_app2, Nat.sub_diag by lia.
    - destruct (Nat.leb_spec o o'); cbn [andb]; [|reflexivity].
      destruct (Nat.ltb_spec o' (o + length ws)), (Nat.ltb_spec o' (o + (length ws + 1))); try lia; [|reflexivity].
      now rewrite nth_error_app1 by lia.
  Qed.

  Lemma now_loaded (h : heap T) b0 o0 ws b o : (exists v, load h b o = Ok v) -> exists v, now h b0 o0 ws b o = Ok v.
  Proof.
    intros E. unfold now. destruct (_ && _) eqn:Q; [|exact E]. apply andb_prop in Q as [Q E2]. apply andb_prop in Q as [_ E1].
    apply Nat.leb_le in E1. apply Nat.ltb_lt in E2. destruct (nth_error ws (o - o0)) eqn:N; [eauto|]. apply nth_error_None in N. lia.
  Qed.

  (** the loop follows the recurrence until it ends or an operation fails *)
  Lemma loop_history (ops : list (heap T -> res T)) (next : list T -> nat -> res T) : forall (h h1 : heap T) b o pre,
    patched h h1 b o pre ->
    (forall k, k < length ops -> exists v, load h b (o + length pre + k) = Ok v) ->
    (forall k op, nth_error ops k = Some op -> forall h2 ws, length ws = length pre + k -> patched h h2 b o ws -> op h2 = next ws (length pre + k)) ->
    exists ws, length ws <= length ops /\
      (forall k v, nth_error ws k = Some v -> next (pre ++ firstn k ws) (length pre + k) = Ok v) /\
      ((length ws = length ops /\ exists h', loop h1 ops (b, o + length pre) = Ok h' /\ patched h h' b o (pre ++ ws)) \/
       (length ws < length ops /\ (forall v, next (pre ++ ws) (length pre + length ws) <> Ok v) /\
        (next (pre ++ ws) (length pre + length ws) = Panic -> loop h1 ops (b, o + length pre) = Panic) /\
        (next (pre ++ ws) (length pre + length ws) = Oob -> loop h1 ops (b, o + length pre) = Oob))).
  Proof.
    induction ops as [|op ops IH]; intros h h1 b o pre P V N.
    - exists []. split; [reflexivity|]. split; [intros [|k] v; discriminate|]. left. split; [reflexivity|].
      exists h1. rewrite app_nil_r. split; [reflexivity|exact P].
    - assert (E0 : op h1 = next pre (length pre)) by (specialize (N 0 op eq_refl h1 pre); rewrite Nat.add_0_r in N; now apply N).
      destruct (next pre (length pre)) as [v| |] eqn:E.
      + destruct (V 0 ltac:(cbn; lia)) as (x & EX). rewrite Nat.add_0_r in EX.
        destruct (now_loaded h b o pre b (o + length pre) (ex_intro _ x EX)) as (x' & EX'). destruct P as [PL PP]. rewrite <- PP in EX'.
        destruct (store_ok h1 b (o + length pre) v x' EX') as (h2 & ES).
        pose proof (patched_snoc h h1 h2 b o pre v (conj PL PP) ES) as P2.
        assert (LL : length (pre ++ [v]) = S (length pre)) by (rewrite app_length; cbn; lia).
        destruct (IH h h2 b o (pre ++ [v]) P2) as (ws & LW & HW & R).
        * intros k K. rewrite LL. replace (o + S (length pre) + k) with (o + length pre + S k) by lia. apply V. cbn; lia.
        * intros k op' N' h3 ws LW PW. rewrite LL in *. replace (S (length pre) + k) with (length pre + S k) in * by lia. now apply (N (S k)).
        * exists (v :: ws). split; [cbn; lia|]. split.
          { intros [|k] w; cbn [nth_error firstn]; intros Q.
            - injection Q as <-. now rewrite app_nil_r, Nat.add_0_r.
            - specialize (HW k w Q). rewrite LL, <- app_assoc in HW. cbn [app] in HW. now replace (length pre + S k) with (S (length pre) + k) by lia. }
          rewrite LL, <- app_assoc in R. cbn [app length] in *. cbn [loop]. rewrite E0. cbn [bind]. unfold st. cbn [fst snd]. rewrite ES.
          cbn [bind]. unfold padd. cbn [fst snd]. replace (o + length pre + 1) with (o + S (length pre)) by lia.
          replace (length pre + S (length ws)) with (S (length pre) + length ws) by lia.
          destruct R as [[LE R]|[LE R]]; [left|right]; (split; [lia|exact R]).
      + exists []. split; [cbn; lia|]. split; [intros [|k] w; discriminate|]. right. cbn [length]. rewrite app_nil_r, Nat.add_0_r, E.
        split; [lia|]. split; [discriminate|]. split; [|discriminate]. intros _. cbn [loop]. now rewrite E0.
      + exists []. split; [cbn; lia|]. split; [intros [|k] w; discriminate|]. right. cbn [length]. rewrite app_nil_r, Nat.add_0_r, E.
        split; [lia|]. split; [discriminate|]. split; [discriminate|]. intros _. cbn [loop]. now rewrite E0.
  Qed.

  Lemma indices_unrank sh k idx : nth_error (indices sh) k = Some idx -> k < prod sh /\ idx = unrank k sh.
  Proof.
    intros N. assert (K : k < prod sh) by (rewrite <- indices_length; apply nth_error_Some; congruence). split; [exact K|].
    destruct (unrank_in_range k sh K) as [R RK]. pose proof (nth_indices_rank (unrank k sh) sh R) as N2. rewrite RK in N2. congruence.
  Qed.

  (** one history covers the whole run *)
  Lemma loop_turns (h : heap T) b o sh (op : list nat -> heap T -> res T) (next : list T -> list nat -> res T) :
    (forall k, k < prod sh -> exists v, load h b (o + k) = Ok v) ->
    (forall idx h2 ws, in_range idx sh -> patched h h2 b o ws -> op idx h2 = next ws idx) ->
    (forall ws idx, in_range idx sh -> next ws idx <> Oob) ->
    exists ws, history next sh ws /\
      ((length ws = prod sh /\ exists h', loop h (map op (indices sh)) (b, o) = Ok h' /\ patched h h' b o ws) \/
       (length ws < prod sh /\ next ws (unrank (length ws) sh) = Panic /\ loop h (map op (indices sh)) (b, o) = Panic)).
  Proof.
    intros V N NO.
    destruct (loop_history (map op (indices sh)) (fun ws k => next ws (unrank k sh)) h h b o []) as (ws & LW & HW & R).
    - apply patched_nil.
    - intros k K. rewrite map_length, indices_length in K. cbn [length]. rewrite Nat.add_0_r. now apply V.
    - intros k op' Q h2 ws LW P. cbn [length Nat.add]. rewrite nth_error_map in Q. destruct (nth_error (indices sh) k) as [idx|] eqn:NI; [|discriminate].
      injection Q as <-. destruct (indices_unrank _ _ _ NI) as [K ->]. apply N; [now apply unrank_in_range|exact P].
    - rewrite map_length, indices_length in *. cbn [app length Nat.add] in *. rewrite Nat.add_0_r in R. exists ws. split; [split; [exact LW|exact HW]|].
      destruct R as [R|(LE & R1 & R2 & R3)]; [left; exact R|right]. split; [exact LE|].
      destruct (next ws (unrank (length ws) sh)) as [v| |] eqn:E; [now elim (R1 v)|auto|].
      exfalso. now apply (NO ws (unrank (length ws) sh)); [apply unrank_in_range|].
  Qed.
End Loop.

(** a op= b on every writeable view, whatever its strides and whatever memory the two
    sides share: the values written follow the recurrence [turn]; they land in the cells
    off, off+1, off+2, ...; nothing else changes; and the operation panics exactly when
    the recurrence does. *)
Theorem C66_assign : forall T (f : T -> T -> res T) (h : heap T) blk n a b,
  live h blk n -> chain blk n false a -> valid h b -> broadcastable (a_shape b) (a_shape a) -> length (a_shape a) <= MAX_DIMS ->
  (forall x y, f x y <> Oob) ->
  exists ws, history (turn f h a b) (a_shape a) ws /\
    ((length ws = prod (a_shape a) /\ exists h', nd_assign f h a b = Ok h' /\ patched h h' blk (a_off a) ws) \/
     (length ws < prod (a_shape a) /\ turn f h a b ws (unrank (length ws) (a_shape a)) = Panic /\ nd_assign f h a b = Panic)).
Proof.
  intros T f h blk n a b LV C Vb BR MD NO. pose proof (chain_inv _ _ _ _ C) as I. pose proof (chain_valid _ _ _ _ _ LV C) as Va.
  rewrite (nd_assign_loop f h a b Va Vb) by (try assumption; apply (i_wr _ _ _ _ I)). unfold a_ptr. rewrite (i_blk _ _ _ _ I).
  apply loop_turns.
  - intros k K. eapply live_load; [exact LV|]. pose proof (chain_run _ _ _ C). lia.
  - intros idx h2 ws R [_ P]. unfold step2, turn, get. rewrite (i_blk _ _ _ _ I), !P. reflexivity.
  - intros ws idx R. unfold turn.
    destruct (now_loaded h (a_blk a) (a_off a) ws (a_blk a) (a_off a + dot idx (a_stride a))) as (x & ->); [now apply Va|].
    destruct (now_loaded h (a_blk a) (a_off a) ws (a_blk b) (a_off b + dot (bidx (a_shape b) idx) (a_stride b))) as (y & ->).
    { destruct (nd_assign_kernel f h a b Vb (i_wr _ _ _ _ I) BR) as (rs & _ & HR & _). apply Vb. now apply HR. }
    apply NO.
Qed.
Print Assumptions C66_assign.

Theorem C66_assign_scalar : forall T (f : T -> T -> res T) (h : heap T) blk n a c,
  live h blk n -> chain blk n false a -> length (a_shape a) <= MAX_DIMS ->
  (forall x y, f x y <> Oob) ->
  exists ws, history (turn1 f h a c) (a_shape a) ws /\
    ((length ws = prod (a_shape a) /\ exists h', nd_assign_scalar f h a c = Ok h' /\ patched h h' blk (a_off a) ws) \/
     (length ws < prod (a_shape a) /\ turn1 f h a c ws (unrank (length ws) (a_shape a)) = Panic /\ nd_assign_scalar f h a c = Panic)).
Proof.
  intros T f h blk n a c LV C MD NO. pose proof (chain_inv _ _ _ _ C) as I. pose proof (chain_valid _ _ _ _ _ LV C) as Va.
  rewrite (nd_assign_scalar_loop f h a c Va) by (try assumption; apply (i_wr _ _ _ _ I)). unfold a_ptr. rewrite (i_blk _ _ _ _ I).
  apply loop_turns.
  - intros k K. eapply live_load; [exact LV|]. pose proof (chain_run _ _ _ C). lia.
  - intros idx h2 ws R [_ P]. unfold turn1, get. rewrite (i_blk _ _ _ _ I), !P. reflexivity.
  - intros ws idx R. unfold turn1.
    destruct (now_loaded h (a_blk a) (a_off a) ws (a_blk a) (a_off a + dot idx (a_stride a))) as (x & ->); [now apply Va|]. apply NO.
Qed.
Print Assumptions C66_assign_scalar.

(** a history is determined by its length, so the theorems above leave no choice *)
Theorem C66_unique : forall T (next : list T -> list nat -> res T) sh ws ws',
  history next sh ws -> history next sh ws' -> length ws = length ws' -> ws = ws'.
Proof.
  intros T next sh ws ws' [_ H] [_ H'] L. enough (G : forall k, firstn k ws = firstn k ws').
  { rewrite <- (firstn_all ws), <- (firstn_all ws'), <- L. apply G. }
  induction k as [|k IH]; [reflexivity|].
  destruct (nth_error ws k) as [v|] eqn:N.
  - assert (K : k < length ws') by (rewrite <- L; apply nth_error_Some; congruence).
    destruct (nth_error ws' k) as [v'|] eqn:N'; [|apply nth_error_None in N'; lia].
    pose proof (H k v N) as E. pose proof (H' k v' N') as E'. rewrite IH in E.
    assert (v = v') as <- by congruence.
    apply nth_error_split in N as (l1 & l2 & -> & L1). apply nth_error_split in N' as (l3 & l4 & -> & L3).
    rewrite <- L1 in IH at 1. rewrite <- L3 in IH at 1. rewrite !firstn_app, !Nat.sub_diag, !firstn_O, !app_nil_r, !firstn_all in IH. subst l3.
    rewrite <- L1. change (S (length l1)) with (1 + length l1). rewrite !firstn_app.
    rewrite !(firstn_all2 l1) by lia. replace (1 + length l1 - length l1) with 1 by lia. reflexivity.
  - apply nth_error_None in N. rewrite !firstn_all2 by lia. rewrite !firstn_all2 in IH by lia. exact IH.
Qed.
Print Assumptions C66_unique.

(** ** When is that the expected result? *)
(** values that remember how they were computed *)
Inductive term : Set := Cell (b o : nat) | Op (x y : term).
(** every cell of block blk (n cells) and of the others (m cells) holds its own name *)
Definition labels (blk n m count : nat) : heap term :=
  map (fun i => Some (map (Cell i) (seq 0 (if i =? blk then n else m)))) (seq 0 count).

Lemma nth_error_seq_lt k n s : k < n -> nth_error (seq s n) k = Some (s + k).
Proof. revert k s. induction n as [|n IH]; intros [|k] s L; cbn [seq nth_error]; try lia; [f_equal; lia|]. rewrite IH by lia. f_equal. lia. Qed.

Lemma labels_live blk n m count i : i < count -> live (labels blk n m count) i (if i =? blk then n else m).
Proof.
  intros L. unfold live, labels. rewrite nth_error_map, nth_error_seq_lt by exact L. cbn [option_map Nat.add].
  eexists. split; [reflexivity|]. now rewrite map_length, seq_length.
Qed.
Lemma labels_load blk n m count i o v : load (labels blk n m count) i o = Ok v -> v = Cell i o.
Proof.
  unfold load, labels. rewrite nth_error_map. destruct (Nat.lt_ge_cases i count) as [L|L].
  - rewrite nth_error_seq_lt by exact L. cbn [option_map Nat.add]. rewrite nth_error_map.
    set (k := if i =? blk then n else m). destruct (Nat.lt_ge_cases o k) as [O|O].
    + rewrite nth_error_seq_lt by exact O. cbn. congruence.
    + replace (nth_error (seq 0 k) o) with (@None nat) by (symmetry; apply nth_error_None; now rewrite seq_length). discriminate.
  - replace (nth_error (seq 0 count) i) with (@None nat) by (symmetry; apply nth_error_None; now rewrite seq_length). discriminate.
Qed.

Definition as_expected {T} (f : T -> T -> T) (h h' : heap T) (a b : arr) : Prop :=
  forall idx, in_range idx (a_shape a) ->
    get h' a idx = (x <- get h a idx ;; y <- get h b (bidx (a_shape b) idx) ;; Ok (f x y)).

(** a op= b gives every element of a its expected value, for every operation and all
    contents, exactly when the elements of a are consecutive in memory in row-major order
    and b never reads an element of a that was written earlier. *)
Theorem C66_right : forall blk n a blk2 m bc b,
  chain blk n false a -> chain blk2 m bc b -> (blk2 = blk -> m = n) ->
  broadcastable (a_shape b) (a_shape a) -> length (a_shape a) <= MAX_DIMS ->
  ((forall T (f : T -> T -> T) (h : heap T), live h blk n -> live h blk2 m ->
      exists h', nd_assign (fun x y => Ok (f x y)) h a b = Ok h' /\ as_expected f h h' a b) <->
   (forall idx, in_range idx (a_shape a) -> dot idx (a_stride a) = rank idx (a_shape a)) /\
   (forall i j, in_range i (a_shape a) -> in_range j (a_shape a) -> a_blk b = a_blk a ->
      a_off b + dot (bidx (a_shape b) j) (a_stride b) = a_off a + dot i (a_stride a) -> rank j (a_shape a) <= rank i (a_shape a))).
Proof.
  intros blk n a blk2 m bc b C C2 SB BR MD. pose proof (chain_inv _ _ _ _ C) as I. pose proof (chain_inv _ _ _ _ C2) as I2. split.
  - intros H. set (h := labels blk n m (S (blk + blk2))).
    assert (L1 : live h blk n) by (pose proof (labels_live blk n m (S (blk + blk2)) blk ltac:(lia)) as L; now rewrite Nat.eqb_refl in L).
    assert (L2 : live h blk2 m).
    { pose proof (labels_live blk n m (S (blk + blk2)) blk2 ltac:(lia)) as L. destruct (Nat.eqb_spec blk2 blk) as [E|E]; [|exact L].
      assert (EM : n = m) by (symmetry; auto). exact (eq_rect n (fun z => live _ blk2 z) L m EM). }
    destruct (H term Op h L1 L2) as (h' & E & X). pose proof (chain_valid _ _ _ _ _ L1 C) as Va. pose proof (chain_valid _ _ _ _ _ L2 C2) as Vb.
    destruct (C66_assign term (fun x y => Ok (Op x y)) h blk n a b L1 C Vb BR MD ltac:(discriminate)) as (ws & [_ HI] & [(LW & h'' & E' & [_ P])|(_ & _ & E')]);
      rewrite E in E'; [|discriminate]. injection E' as <-.
    destruct (nd_assign_kernel (fun x y : term => Ok (Op x y)) h a b Vb (i_wr _ _ _ _ I) BR) as (rs & _ & HR & _).
    (* the expected value of an element *)
    assert (XV : forall idx, in_range idx (a_shape a) -> load h' blk (a_off a + dot idx (a_stride a)) =
      Ok (Op (Cell blk (a_off a + dot idx (a_stride a))) (Cell blk2 (a_off b + dot (bidx (a_shape b) idx) (a_stride b))))).
    { intros idx R. pose proof (X idx R) as Q. destruct (proj2 Va idx R) as (x & Ex). destruct (proj2 Vb _ (proj1 (HR idx R))) as (y & Ey).
      rewrite Ex, Ey in Q. cbn [bind] in Q. unfold get in *. rewrite (i_blk _ _ _ _ I) in *. rewrite (i_blk _ _ _ _ I2) in *.
      apply labels_load in Ex as ->. apply labels_load in Ey as ->. exact Q. }
    (* what a read sees: a name of the cell, or a computed value *)
    assert (SEE : forall k c o v, now h blk (a_off a) (firstn k ws) c o = Ok v ->
      (v = Cell c o /\ ~ (c = blk /\ a_off a <= o < a_off a + length (firstn k ws))) \/ exists x y, v = Op x y).
    { intros k c o v. unfold now. destruct (_ && _) eqn:Q.
      - destruct (nth_error (firstn k ws) (o - a_off a)) as [w|] eqn:N; [|discriminate]. intros Z; injection Z as <-. right.
        assert (exists j, nth_error ws j = Some w) as (j & NJ).
        { apply In_nth_error. apply nth_error_In in N. rewrite <- (firstn_skipn k ws). apply in_or_app. now left. }
        specialize (HI j w NJ). unfold turn in HI. destruct (now _ _ _ _ _ _) in HI; try discriminate. cbn [bind] in HI.
        destruct (now _ _ _ _ _ _) in HI; try discriminate. cbn [bind] in HI. injection HI as <-. eauto.
      - intros Z. left. split; [now apply labels_load in Z|]. intros (-> & Q1 & Q2).
        rewrite Nat.eqb_refl, (proj2 (Nat.leb_le _ _) Q1), (proj2 (Nat.ltb_lt _ _) Q2) in Q. discriminate. }
    (* the value written in turn k *)
    assert (WR : forall k, k < prod (a_shape a) -> exists x y,
      load h' blk (a_off a + k) = Ok (Op x y) /\
      now h blk (a_off a) (firstn k ws) blk (a_off a + dot (unrank k (a_shape a)) (a_stride a)) = Ok x /\
      now h blk (a_off a) (firstn k ws) blk2 (a_off b + dot (bidx (a_shape b) (unrank k (a_shape a))) (a_stride b)) = Ok y).
    { intros k K. destruct (nth_error ws k) as [w|] eqn:N; [|apply nth_error_None in N; lia].
      pose proof (HI k w N) as Q. unfold turn in Q. rewrite (i_blk _ _ _ _ I), (i_blk _ _ _ _ I2) in Q.
      destruct (now h blk (a_off a) (firstn k ws) blk _) as [x| |] eqn:E1; try discriminate. cbn [bind] in Q.
      destruct (now h blk (a_off a) (firstn k ws) blk2 _) as [y| |] eqn:E2; try discriminate. cbn [bind] in Q. injection Q as <-.
      exists x, y. split; [|auto]. rewrite P. unfold now.
      rewrite Nat.eqb_refl, (proj2 (Nat.leb_le (a_off a) (a_off a + k))), (proj2 (Nat.ltb_lt (a_off a + k) (a_off a + length ws))) by lia. cbn [andb].
      replace (a_off a + k - a_off a) with k by lia. now rewrite N. }
    assert (D : forall idx, in_range idx (a_shape a) -> dot idx (a_stride a) = rank idx (a_shape a)).
    { intros idx R. pose proof (XV idx R) as Q. destruct (Nat.lt_ge_cases (dot idx (a_stride a)) (prod (a_shape a))) as [LT|GE].
      - destruct (WR _ LT) as (x & y & E1 & E2 & _). rewrite E1 in Q. injection Q as -> ->.
        destruct (unrank_in_range _ _ LT) as [RU KU].
        destruct (SEE _ _ _ _ E2) as [[Z _]|(x & y & Z)]; [|discriminate]. injection Z as Z.
        destruct (i_nb _ _ _ _ I eq_refl) as (_ & _ & DI & _).
        assert (idx = unrank (dot idx (a_stride a)) (a_shape a)) as EI by (apply DI; [exact R|exact RU|lia]).
        rewrite EI at 2. now rewrite KU.
      - exfalso. rewrite P in Q. unfold now in Q. rewrite Nat.eqb_refl in Q.
        rewrite (proj2 (Nat.ltb_ge (a_off a + dot idx (a_stride a)) (a_off a + length ws))) in Q by lia. rewrite andb_false_r in Q.
        apply labels_load in Q. discriminate. }
    split; [exact D|]. intros i j Ri Rj EB EC. apply Nat.le_ngt. intros LT.
    destruct (WR (rank j (a_shape a)) ltac:(now apply rank_lt)) as (x & y & E1 & _ & E3). rewrite unrank_rank in E3 by exact Rj.
    pose proof (XV j Rj) as Q. rewrite D in Q by exact Rj. rewrite E1 in Q. injection Q as _ ->.
    destruct (SEE _ _ _ _ E3) as [[_ Z]|(x' & y' & Z)]; [|discriminate]. apply Z.
    rewrite (i_blk _ _ _ _ I), (i_blk _ _ _ _ I2) in EB. split; [exact EB|]. rewrite EC, D by exact Ri.
    rewrite firstn_length, LW. pose proof (rank_lt _ _ Rj). lia.
  - intros [D NF] T f h L1 L2.
    pose proof (chain_valid _ _ _ _ _ L1 C) as Va. pose proof (chain_valid _ _ _ _ _ L2 C2) as Vb.
    destruct (nd_assign_kernel (fun x y : T => Ok (f x y)) h a b Vb (i_wr _ _ _ _ I) BR) as (rs & _ & HR & _).
    destruct (C60_assign_exact T (fun x y => Ok (f x y)) h blk n a b L1 C Vb BR MD) as (h' & E & _ & X).
    + intros idx R. rewrite D by exact R. lia.
    + intros idx R (EB & Q). set (k := a_off b + dot (bidx (a_shape b) idx) (a_stride b) - a_off a) in *.
      pose proof (rank_lt _ _ R) as RL. destruct (unrank_in_range k (a_shape a)) as [RU KU]; [lia|].
      assert (G : rank idx (a_shape a) <= rank (unrank k (a_shape a)) (a_shape a)) by (apply NF; [exact RU|exact R|exact EB|rewrite D, KU by exact RU; lia]).
      lia.
    + intros idx R. destruct (proj2 Va idx R) as (x & ->). destruct (proj2 Vb _ (proj1 (HR idx R))) as (y & ->). cbn [bind]. eauto.
    + exists h'. split; [exact E|]. intros idx R. rewrite <- X by exact R. unfold get. now rewrite D.
Qed.
Print Assumptions C66_right.

(** x[1..] += x[..5] on 10..15 feeds every sum into the next one; x[..5] += x[1..] does not. *)
Example C66_ex : exists a b h' ws, chain 0 6 false a /\ chain 0 6 false b /\ live exh 0 6 /\
  history (turn (fun x y => Ok (x + y)) exh a b) (a_shape a) ws /\ ws = [21; 33; 46; 60; 75] /\
  nd_assign (fun x y => Ok (x + y)) exh a b = Ok h' /\ elems h' a = Ok ws.
Proof.
  destruct (nd_slice (fresh_arr 0 6 [6]) [IFrom 1]) as [r1| |] eqn:E1; try discriminate.
  destruct (nd_slice (fresh_arr 0 6 [6]) [ITo 5]) as [r2| |] eqn:E2; try discriminate.
  exists r1, r2. eexists. exists [21; 33; 46; 60; 75]. split; [|split; [|split]].
  - eapply (Ch_slice 0 6 false (fresh_arr 0 6 [6]) [IFrom 1]); [apply Ch_new; [reflexivity|lia]| |exact E1]. vm_compute. repeat constructor; lia.
  - eapply (Ch_slice 0 6 false (fresh_arr 0 6 [6]) [ITo 5]); [apply Ch_new; [reflexivity|lia]| |exact E2]. vm_compute. repeat constructor; lia.
  - apply exh_live.
  - vm_compute in E1, E2. injection E1 as <-. injection E2 as <-. split; [|split; [reflexivity|split; vm_compute; reflexivity]].
    split; [vm_compute; lia|]. intros k v. do 5 (destruct k as [|k]; [intros Q; injection Q as <-; vm_compute; reflexivity|]). destruct k; discriminate.
Qed.
Example C66_right_ex : exists a b, chain 0 6 false a /\ chain 0 6 false b /\
  (forall idx, in_range idx (a_shape a) -> dot idx (a_stride a) = rank idx (a_shape a)) /\
  a_blk b = a_blk a /\ (exists i j, in_range i (a_shape a) /\ in_range j (a_shape b) /\
     a_off b + dot j (a_stride b) = a_off a + dot i (a_stride a)) /\
  forall T (f : T -> T -> T) (h : heap T), live h 0 6 -> exists h', nd_assign (fun x y => Ok (f x y)) h a b = Ok h' /\ as_expected f h h' a b.
Proof.
  destruct (nd_slice (fresh_arr 0 6 [6]) [ITo 5]) as [r1| |] eqn:E1; try discriminate.
  destruct (nd_slice (fresh_arr 0 6 [6]) [IFrom 1]) as [r2| |] eqn:E2; try discriminate.
  assert (C1 : chain 0 6 false r1) by (eapply (Ch_slice 0 6 false (fresh_arr 0 6 [6]) [ITo 5]); [apply Ch_new; [reflexivity|lia]| |exact E1]; vm_compute; repeat constructor; lia).
  assert (C2 : chain 0 6 false r2) by (eapply (Ch_slice 0 6 false (fresh_arr 0 6 [6]) [IFrom 1]); [apply Ch_new; [reflexivity|lia]| |exact E2]; vm_compute; repeat constructor; lia).
  vm_compute in E1, E2. injection E1 as <-. injection E2 as <-.
  match goal with H : chain 0 6 false ?x, H' : chain 0 6 false ?y |- _ => exists x, y end.
  assert (D : forall idx, in_range idx [5] -> dot idx [1] = rank idx [5]).
  { intros idx R. inversion R as [|i ? l ? Hi R']; subst. inversion R'; subst. cbn. lia. }
  split; [exact C1|]. split; [exact C2|]. split; [exact D|]. split; [reflexivity|]. split.
  - exists [1], [0]. cbn. repeat split; repeat constructor; lia.
  - intros T f h L. refine (proj2 (C66_right 0 6 _ 0 6 false _ C1 C2 _ _ _) _ T f h L L).
    + auto.
    + cbn. split; [lia|]. constructor; [now right|constructor].
    + vm_compute. lia.
    + split; [exact D|]. cbn [a_shape a_stride a_off a_blk]. intros i j Ri Rj _ Q.
      inversion Ri as [|i0 ? l ? Hi R']; subst. inversion R'; subst. inversion Rj as [|j0 ? l ? Hj R'']; subst. inversion R''; subst.
      cbn in *. lia.
Qed.
