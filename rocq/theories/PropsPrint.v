(** PropsPrint.v: the Debug text of arrays (C56) and the unused helper that merges contiguous
    axes (C57). *)
From Coq Require Import List Arith Lia Bool Ascii.
From Verif Require Import Base Spec Layout SpecFacts LayoutFacts Views ViewsFacts ViewsFacts2 Kernels Access HeapFacts KernelFacts OpFacts
  AccessFacts Chain ChainFacts EinsumFacts6 EinsumFacts7 PropsViews PropsOps Print.
Import ListNotations.
Open Scope res_scope.
Open Scope list_scope.

(** ** The array literal: the Rust expression one would write for the array, without spaces *)
Definition join (l : list (list ascii)) : list ascii :=
  match l with
  | [] => []
  | x :: l' => x ++ flat_map (fun y => ","%char :: y) l'
  end.

Fixpoint literal (sh : list nat) (f : list nat -> list ascii) : list ascii :=
  match sh with
  | [] => f []
  | n :: sh' => ["["%char] ++ join (map (fun i => literal sh' (fun idx => f (i :: idx))) (seq 0 n)) ++ ["]"%char]
  end.

Definition strip (s : list ascii) : list ascii := filter (fun c => negb (Ascii.eqb c " "%char)) s.

(** text of one element as it appears in [literal] *)
Definition shown {T} (show : T -> list ascii) (x : res T) : list ascii :=
  match x with Ok v => strip (show v) | _ => [] end.

Lemma strip_app s t : strip (s ++ t) = strip s ++ strip t.
Proof. apply filter_app. Qed.
Lemma strip_spaces n : strip (repeat " "%char n) = [].
Proof. induction n; [reflexivity|exact IHn]. Qed.

Lemma flat_map_map {A B C} (f : A -> B) (g : B -> list C) l : flat_map g (map f l) = flat_map (fun x => g (f x)) l.
Proof. induction l as [|x l IH]; [reflexivity|]. cbn [map flat_map]. now rewrite IH. Qed.

Lemma flat_map_ext_in {A B} (f g : A -> list B) l : (forall x, In x l -> f x = g x) -> flat_map f l = flat_map g l.
Proof. induction l as [|x l IH]; intros H; [reflexivity|]. cbn [flat_map]. rewrite (H x) by now left. rewrite IH; [reflexivity|]. intros y Y. apply H. now right. Qed.

Lemma literal_ext sh : forall f g, (forall idx, in_range idx sh -> f idx = g idx) -> literal sh f = literal sh g.
Proof.
  induction sh as [|n sh IH]; intros f g E; [apply E; constructor|]. cbn [literal]. do 2 f_equal. f_equal.
  apply map_ext_in. intros i I. apply IH. intros idx R. apply E. apply in_seq in I. constructor; [lia|exact R].
Qed.

Lemma nth_error_skip {A} k : forall (l : list A) j, nth_error (skipn k l) j = nth_error l (k + j).
Proof. induction k as [|k IH]; intros [|x l] j; cbn [skipn Nat.add nth_error]; auto. now destruct j. Qed.
Lemma skip_skip {A} j : forall k (l : list A), skipn k (skipn j l) = skipn (j + k) l.
Proof. induction j as [|j IH]; intros k [|x l]; cbn [skipn Nat.add]; auto. now destruct k. Qed.

Section Fmt.
  Context {T : Type} (show : T -> list ascii).

  Definition at_ (it : list T) (k : nat) : list ascii := match nth_error it k with Some x => strip (show x) | None => [] end.

  Lemma at_skipn it k j : at_ (skipn k it) j = at_ it (k + j).
  Proof. unfold at_. now rewrite (nth_error_skip k it j). Qed.

  Lemma fmt_items_ok (pre : nat -> list ascii) body p (L : list T -> list ascii) :
    (forall it, p <= length it -> exists s, body it = Ok (s, skipn p it) /\ strip s = L it) ->
    forall n i it, n * p <= length it -> exists s, fmt_items pre body n i it = Ok (s, skipn (n * p) it) /\
      strip s = flat_map (fun j => strip (pre (i + j)) ++ L (skipn (j * p) it)) (seq 0 n).
  Proof.
    intros HB n. induction n as [|n IH]; intros i it LE; cbn [fmt_items].
    - exists []. split; reflexivity.
    - destruct (HB it) as (s & EB & ES); [lia|]. rewrite EB. cbn [bind fst snd].
      destruct (IH (S i) (skipn p it)) as (t & ET & E2); [rewrite skipn_length; lia|]. rewrite ET. cbn [bind fst snd].
      eexists. split; [rewrite skip_skip; reflexivity|].
      rewrite !strip_app, ES, E2. cbn [seq flat_map]. rewrite Nat.add_0_r, <- app_assoc. cbn [Nat.mul skipn]. do 2 f_equal.
      rewrite <- seq_shift, flat_map_map. apply flat_map_ext_in. intros j _. f_equal; [do 2 f_equal; lia|]. f_equal.
      rewrite skip_skip. reflexivity.
  Qed.

  (** dropping the leading comma gives [join] *)
  Lemma flat_join (sep0 : nat -> list ascii) (g : nat -> list ascii) n :
    (forall j, sep0 j = if 0 <? j then [","%char] else []) ->
    flat_map (fun j => sep0 j ++ g j) (seq 0 n) = join (map g (seq 0 n)).
  Proof.
    intros H. destruct n as [|n]; [reflexivity|]. cbn [seq flat_map map join]. rewrite H. cbn [Nat.ltb Nat.leb app]. f_equal.
    rewrite flat_map_map. apply flat_map_ext_in. intros j J. apply in_seq in J. rewrite H. destruct (Nat.ltb_spec 0 j); [reflexivity|lia].
  Qed.

  Lemma fmt_elem_ok it : 1 <= length it -> exists s, fmt_elem show it = Ok (s, skipn 1 it) /\ strip s = at_ it 0.
  Proof. destruct it as [|x it]; cbn [length]; [lia|]. intros _. exists (show x). split; reflexivity. Qed.

  Lemma literal_row n sh it :
    map (fun j => literal sh (fun idx => at_ (skipn (j * prod sh) it) (rank idx sh))) (seq 0 n)
    = map (fun i => literal sh (fun idx => at_ it (rank (i :: idx) (n :: sh)))) (seq 0 n).
  Proof. apply map_ext. intros j. apply literal_ext. intros idx _. now rewrite at_skipn. Qed.

  Lemma fmt_inner_ok sh : forall level it, prod sh <= length it ->
    exists s, fmt_inner show sh level it = Ok (s, skipn (prod sh) it) /\ strip s = literal sh (fun idx => at_ it (rank idx sh)).
  Proof.
    induction sh as [|n sh IH]; intros level it LE; [now apply fmt_elem_ok|].
    destruct sh as [|m sh].
    - cbn [fmt_inner]. rewrite prod_cons in LE. replace (n * prod []) with (n * 1) in LE by (cbn; lia).
      destruct (fmt_items_ok (fun i => if 0 <? i then [","%char; " "%char] else []) (fmt_elem show) 1 (fun it => at_ it 0) fmt_elem_ok n 0 it LE) as (s & ES & E).
      rewrite ES. cbn [bind fst snd]. eexists. split; [reflexivity|].
      change (strip ("["%char :: s ++ ["]"%char])) with ("["%char :: strip (s ++ ["]"%char])). rewrite strip_app, E.
      rewrite (flat_join _ (fun j => at_ (skipn (j * 1) it) 0)) by (intros j; cbn [Nat.add]; destruct (0 <? j); reflexivity).
      cbn [literal app]. do 3 f_equal. apply map_ext. intros j. rewrite at_skipn. reflexivity.
    - set (q := m :: sh) in *. change (fmt_inner show (n :: q) level it) with
        (r <- fmt_items (fun i => (if 0 <? i then [","%char] else []) ++ repeat " "%char ((level + 1) * 2)) (fmt_inner show q (level + 1)) n 0 it ;;
         Ok ("["%char :: fst r ++ repeat " "%char (level * 2) ++ ["]"%char], snd r)).
      rewrite prod_cons in LE.
      destruct (fmt_items_ok (fun i => (if 0 <? i then [","%char] else []) ++ repeat " "%char ((level + 1) * 2)) (fmt_inner show q (level + 1))
        (prod q) (fun it => literal q (fun idx => at_ it (rank idx q))) (IH (level + 1)) n 0 it LE) as (s & ES & E).
      rewrite ES. cbn [bind fst snd]. eexists. split; [reflexivity|].
      change (strip ("["%char :: s ++ repeat " "%char (level * 2) ++ ["]"%char])) with ("["%char :: strip (s ++ repeat " "%char (level * 2) ++ ["]"%char])).
      rewrite !strip_app, strip_spaces, E.
      rewrite (flat_join _ (fun j => literal q (fun idx => at_ (skipn (j * prod q) it) (rank idx q))))
        by (intros j; cbn [Nat.add]; rewrite strip_app, strip_spaces, app_nil_r; destruct (0 <? j); reflexivity).
      rewrite literal_row. reflexivity.
  Qed.

  Lemma nd_fmt_elems (h : heap T) a : valid h a -> length (a_shape a) <= MAX_DIMS ->
    exists vs, elems h a = Ok vs /\ nd_fmt show h a = (r <- fmt_inner show (a_shape a) 0 vs ;; Ok (fst r)).
  Proof.
    intros V MD. destruct (valid_elems h a V) as (vs & E). exists vs. split; [exact E|]. unfold nd_fmt.
    rewrite nd_flatiter_eq; [now rewrite E|exact (proj1 V)|exact MD].
  Qed.
End Fmt.

(** ** C56.  Without its spaces the Debug text is the literal of the array. *)
Theorem C56_literal : forall T (show : T -> list ascii) (h : heap T) a, valid h a -> length (a_shape a) <= MAX_DIMS ->
  exists s, nd_fmt show h a = Ok s /\ strip s = literal (a_shape a) (fun idx => shown show (get h a idx)).
Proof.
  intros T show h a V MD. destruct (nd_fmt_elems show h a V MD) as (vs & E & ->).
  assert (L : length vs = prod (a_shape a)) by (rewrite <- indices_length; exact (mapM_length _ _ _ E)).
  destruct (fmt_inner_ok show (a_shape a) 0 vs) as (s & ES & EL); [lia|]. rewrite ES. cbn [bind fst]. exists s. split; [reflexivity|].
  rewrite EL. apply literal_ext. intros idx R. destruct (nth_error_of_indices_get h a vs idx E R) as (y & Y & ->). unfold at_. now rewrite Y.
Qed.
Print Assumptions C56_literal.

(** more than 32 axes that do not merge are the only obstacle *)
Theorem C56_too_many_axes_panics : forall T (show : T -> list ascii) (h : heap T) a, length (a_stride a) = length (a_shape a) ->
  MAX_DIMS < length (fst (collapse (a_shape a) (a_stride a))) -> nd_fmt show h a = Panic.
Proof. intros T show h a W MD. unfold nd_fmt, nd_flatiter. rewrite (proj2 (C01_flat_indices _ _ W) MD). reflexivity. Qed.
Print Assumptions C56_too_many_axes_panics.

(** ** The literal determines the shape and the texts of the elements *)
Definition special (c : ascii) : Prop := c = "["%char \/ c = "]"%char \/ c = ","%char.
(** text of an element that the punctuation of the literal cannot be confused with: what [{:?}]
    writes for numbers and booleans *)
Definition plain (s : list ascii) : Prop := s <> [] /\ Forall (fun c => ~ special c /\ c <> " "%char) s.
Definition stops (r : list ascii) : Prop := match r with [] => True | c :: _ => special c end.

Lemma plain_prefix s : forall s' r r', Forall (fun c => ~ special c /\ c <> " "%char) s -> Forall (fun c => ~ special c /\ c <> " "%char) s' ->
  stops r -> stops r' -> s ++ r = s' ++ r' -> s = s' /\ r = r'.
Proof.
  induction s as [|c s IH]; intros [|c' s'] r r' P P' S S' E; cbn [app] in E.
  - auto.
  - subst r. inversion P'; subst. cbn [stops] in S. tauto.
  - subst r'. inversion P; subst. cbn [stops] in S'. tauto.
  - injection E as <- E. inversion P; inversion P'; subst. destruct (IH s' r r') as [-> ->]; auto.
Qed.

Lemma tail_stops (g : nat -> list ascii) l r : stops (flat_map (fun y => ","%char :: y) (map g l) ++ "]"%char :: r).
Proof. destruct l; cbn [map flat_map app stops]; unfold special; tauto. Qed.

Lemma tail_inj sh (f f' : list nat -> list ascii) N N' r r' :
  (forall i r r', i < N -> i < N' -> stops r -> stops r' ->
     literal sh (fun idx => f (i :: idx)) ++ r = literal sh (fun idx => f' (i :: idx)) ++ r' ->
     (forall idx, in_range idx sh -> f (i :: idx) = f' (i :: idx)) /\ r = r') ->
  stops r -> stops r' -> forall m m' k, k + m <= N -> k + m' <= N' ->
  flat_map (fun y => ","%char :: y) (map (fun i => literal sh (fun idx => f (i :: idx))) (seq k m)) ++ "]"%char :: r
  = flat_map (fun y => ","%char :: y) (map (fun i => literal sh (fun idx => f' (i :: idx))) (seq k m')) ++ "]"%char :: r' ->
  m = m' /\ (forall i idx, k <= i < k + m -> in_range idx sh -> f (i :: idx) = f' (i :: idx)) /\ r = r'.
Proof.
  intros IH S S' m. induction m as [|m IHm]; intros [|m'] k LN LN' E; cbn [seq map flat_map app] in E.
  - injection E as ->. repeat split. intros. lia.
  - discriminate.
  - discriminate.
  - injection E as E. rewrite <- !app_assoc in E. apply IH in E as [E0 E]; [|lia|lia|apply tail_stops..].
    apply IHm in E as (-> & E1 & ->); [|lia..]. repeat split. intros i idx LE R. destruct (Nat.eq_dec i k) as [->|]; [now apply E0|]. apply E1; [lia|exact R].
Qed.

Lemma literal_inj sh : forall sh' f f' r r', 0 < prod sh -> 0 < prod sh' ->
  (forall idx, in_range idx sh -> plain (f idx)) -> (forall idx, in_range idx sh' -> plain (f' idx)) -> stops r -> stops r' ->
  literal sh f ++ r = literal sh' f' ++ r' -> sh = sh' /\ (forall idx, in_range idx sh -> f idx = f' idx) /\ r = r'.
Proof.
  induction sh as [|n sh IH]; intros sh' f f' r r' P P' F F' SR SR' E.
  - assert (NF : plain (f [])) by (apply F; constructor). destruct sh' as [|n' sh'].
    + cbn [literal] in E. destruct (plain_prefix _ _ _ _ (proj2 NF) (proj2 (F' [] ltac:(constructor))) SR SR' E) as [E1 ->].
      repeat split. intros idx R. now inversion R.
    + cbn [literal app] in E. destruct NF as [NE NF]. destruct (f []) as [|c s]; [now destruct NE|]. injection E as -> _. inversion NF; subst. unfold special in *. tauto.
  - destruct sh' as [|n' sh'].
    + assert (NF : plain (f' [])) by (apply F'; constructor). cbn [literal app] in E. destruct NF as [NE NF].
      destruct (f' []) as [|c s]; [now destruct NE|]. injection E as <- _. inversion NF; subst. unfold special in *. tauto.
    + rewrite prod_cons in P, P'. destruct n as [|n]; [lia|]. destruct n' as [|n']; [lia|].
      cbn [literal seq map join app] in E. injection E as E. rewrite <- !app_assoc in E.
      apply IH in E as (<- & E0 & E); [|lia|lia| | |apply tail_stops..]; cycle 1.
      { intros idx R. apply F. constructor; [lia|exact R]. } { intros idx R. apply F'. constructor; [lia|exact R]. }
      apply (tail_inj sh f f' (S n) (S n') r r') in E as (<- & E1 & ->); [| |assumption|assumption|lia|lia].
      * repeat split. intros idx R. inversion R as [|i n0 rest sh0 I RR]; subst. destruct i as [|i]; [now apply E0|]. apply E1; [lia|exact RR].
      * intros i q q' LI LI' SQ SQ' EE. apply IH in EE as (_ & EE & ->); [auto|lia|lia| | |assumption|assumption].
        -- intros idx R. apply F. now constructor.
        -- intros idx R. apply F'. now constructor.
Qed.

Lemma strip_plain s : plain s -> strip s = s.
Proof.
  intros [_ P]. induction P as [|c s [_ H] _ IH]; [reflexivity|]. cbn [strip filter]. destruct (Ascii.eqb_spec c " "%char); [contradiction|].
  cbn [negb]. f_equal. exact IH.
Qed.

(** the Debug texts of two non-empty arrays are equal exactly when the arrays have the same
    shape and the same elements, whatever their layouts *)
Theorem C56_faithful : forall T (show : T -> list ascii) (h : heap T) a b,
  (forall x, plain (show x)) -> (forall x y, show x = show y -> x = y) ->
  valid h a -> valid h b -> length (a_shape a) <= MAX_DIMS -> length (a_shape b) <= MAX_DIMS ->
  0 < prod (a_shape a) -> 0 < prod (a_shape b) ->
  (nd_fmt show h a = nd_fmt show h b <->
   a_shape a = a_shape b /\ forall idx, in_range idx (a_shape a) -> get h a idx = get h b idx).
Proof.
  intros T show h a b PL INJ Va Vb Ma Mb Pa Pb. split.
  - intros E. destruct (C56_literal T show h a Va Ma) as (s & E1 & L1). destruct (C56_literal T show h b Vb Mb) as (s' & E2 & L2).
    assert (s' = s) as -> by congruence. rewrite L1 in L2.
    assert (SH : forall c, valid h c -> forall idx, in_range idx (a_shape c) -> plain (shown show (get h c idx))).
    { intros c [_ V] idx R. destruct (V idx R) as (v & ->). cbn [shown]. rewrite strip_plain by apply PL. apply PL. }
    destruct (literal_inj (a_shape a) (a_shape b) (fun idx => shown show (get h a idx)) (fun idx => shown show (get h b idx)) [] []) as (ES & EF & _); auto.
    + cbn. exact I.
    + cbn. exact I.
    + now rewrite !app_nil_r.
    + split; [exact ES|]. intros idx R. specialize (EF idx R). destruct (proj2 Va idx R) as (x & X). destruct (proj2 Vb idx) as (y & Y); [now rewrite <- ES|].
      rewrite X, Y in EF |- *. cbn [shown] in EF. rewrite !strip_plain in EF by apply PL. f_equal. now apply INJ.
  - intros [ES EG]. destruct (nd_fmt_elems show h a Va Ma) as (vs & E1 & ->). destruct (nd_fmt_elems show h b Vb Mb) as (ws & E2 & ->).
    assert (ws = vs) as ->; [|now rewrite ES]. unfold elems in E1, E2. rewrite <- ES in E2.
    rewrite (mapM_ext (get h a) (get h b)) in E1; [congruence|]. intros idx I. apply EG. now apply in_indices.
Qed.
Print Assumptions C56_faithful.

(** ** C57.  Merging contiguous axes keeps the sequence of addresses. *)
Fixpoint contig_axes (acc : nat) (rsh rst : list nat) : Prop :=
  match rsh, rst with
  | [], [] => True
  | n :: rsh', s :: rst' => s = acc /\ contig_axes (acc * n) rsh' rst'
  | _, _ => False
  end.

Lemma contig_go_spec : forall rsh rst nd acc, length rst = length rsh -> length rsh <= nd ->
  forall k acc', contig_go rsh rst nd acc = (k, acc') -> exists r1 r2 t1 t2, rsh = r1 ++ r2 /\ rst = t1 ++ t2 /\
    length t1 = length r1 /\ k = nd - length r1 /\ acc' = acc * prod r1 /\ contig_axes acc r1 t1.
Proof.
  induction rsh as [|n rsh IH]; intros [|s rst] nd acc L LE k acc' E; cbn [length] in L; try discriminate; cbn [contig_go] in E.
  - injection E as <- <-. exists [], [], [], []. repeat split; cbn [length prod fold_right]; lia.
  - destruct (Nat.eqb_spec acc s) as [->|NE]; cbn [negb] in E.
    + cbn [length] in LE. apply IH in E as (r1 & r2 & t1 & t2 & -> & -> & LT & -> & -> & H); [|lia..].
      exists (n :: r1), r2, (s :: t1), t2. cbn [length]. rewrite prod_cons. repeat split; [lia..|exact H].
    + injection E as <- <-. exists [], (n :: rsh), [], (s :: rst). repeat split; cbn [length prod fold_right]; lia.
Qed.

Lemma rank_snoc i : forall sh x n, length i = length sh -> rank (i ++ [x]) (sh ++ [n]) = rank i sh * n + x.
Proof.
  induction i as [|y i IH]; intros [|m sh] x n L; cbn [length] in L; try discriminate; cbn [app rank].
  - cbn. lia.
  - rewrite prod_app, IH by lia. cbn [prod fold_right]. lia.
Qed.

Lemma contig_axes_dot : forall rsh rst acc, contig_axes acc rsh rst -> forall idx, length idx = length rsh ->
  dot idx (rev rst) = acc * rank idx (rev rsh).
Proof.
  induction rsh as [|n rsh IH]; intros [|s rst] acc C idx L; cbn [contig_axes] in C; try tauto.
  - cbn [rev]. destruct idx; [cbn; lia|discriminate].
  - destruct C as [-> C]. cbn [rev]. destruct idx as [|x i _] using rev_ind; [discriminate|]. rewrite app_length in L. cbn [length] in L.
    assert (LR : length rst = length rsh). { clear -C. revert rst acc n C. induction rsh as [|m rsh IH]; intros [|t rst] acc n C; cbn [contig_axes] in C; try tauto. destruct C as [_ C]. cbn [length]. f_equal. eapply IH; eauto. }
    rewrite dot_app by (rewrite rev_length; lia). rewrite rank_snoc by (rewrite rev_length; lia). rewrite (IH rst (acc * n) C) by lia. cbn [dot]. lia.
Qed.

Lemma map_flat_map {A B C} (g : B -> C) (f : A -> list B) l : map g (flat_map f l) = flat_map (fun x => map g (f x)) l.
Proof. induction l as [|x l IH]; [reflexivity|]. cbn [flat_map]. now rewrite map_app, IH. Qed.

Lemma map_rank_indices sh : map (fun idx => rank idx sh) (indices sh) = seq 0 (prod sh).
Proof. rewrite <- offsets_rm. unfold offsets. apply map_ext. intros idx. apply rank_dot. Qed.

Theorem C57_collapse_contiguous : forall sh st, length st = length sh ->
  map (fun idx => dot idx (snd (collapse_contiguous sh st))) (indices (fst (collapse_contiguous sh st)))
    = map (fun idx => dot idx st) (indices sh) /\
  length (fst (collapse_contiguous sh st)) = length (snd (collapse_contiguous sh st)) /\
  length (fst (collapse_contiguous sh st)) <= length sh.
Proof.
  intros sh st L. unfold collapse_contiguous. destruct (negb _); [cbn [fst snd]; auto|].
  destruct (contig_go (rev sh) (rev st) (length sh) 1) as [k acc] eqn:E.
  apply contig_go_spec in E as (r1 & r2 & t1 & t2 & ER & ET & LT & -> & -> & C); [|rewrite !rev_length; lia..].
  destruct (Nat.eqb_spec (1 * prod r1) 1) as [|NE]; [cbn [fst snd]; auto|]. cbn [fst snd].
  apply (f_equal (@rev nat)) in ER, ET. rewrite rev_involutive, rev_app_distr in ER, ET.
  assert (LR : length sh = length r1 + length r2) by (rewrite ER, app_length, !rev_length; lia).
  assert (L2 : length t2 = length r2) by (rewrite ET, app_length, !rev_length in L; lia).
  assert (F1 : firstn (length sh - length r1) sh = rev r2).
  { rewrite LR, ER. replace (length r1 + length r2 - length r1) with (length (rev r2)) by (rewrite rev_length; lia). rewrite firstn_app, firstn_all, Nat.sub_diag. cbn [firstn]. apply app_nil_r. }
  assert (F2 : firstn (length sh - length r1) st = rev t2).
  { rewrite LR, ET. replace (length r1 + length r2 - length r1) with (length (rev t2)) by (rewrite rev_length; lia). rewrite firstn_app, firstn_all, Nat.sub_diag. cbn [firstn]. apply app_nil_r. }
  rewrite F1, F2. clear F1 F2.
  assert (PR : prod (rev r1) = prod r1). { clear. induction r1 as [|n r IH]; [reflexivity|]. cbn [rev]. rewrite prod_app, IH, !prod_cons. change (prod []) with 1. lia. }
  assert (NR : r1 <> []) by (intros ->; now apply NE). split; [|rewrite !app_length, !rev_length; cbn [length]; destruct r1; [congruence|cbn [length] in *; lia]].
  rewrite ER, ET, !indices_app, !map_flat_map. apply flat_map_ext_in. intros i I. apply in_indices, in_range_length in I. rewrite rev_length in I.
  rewrite !map_map, (map_ext_in (fun x => dot (i ++ x) (rev t2 ++ rev t1)) (fun x => dot i (rev t2) + rank x (rev r1))).
  - rewrite <- (map_map (fun x => rank x (rev r1)) (fun k => dot i (rev t2) + k)), map_rank_indices, PR, indices_one, map_map, Nat.mul_1_l. apply map_ext. intros k.
    rewrite dot_app by (rewrite rev_length; lia). cbn [dot]. lia.
  - intros x X. apply in_indices, in_range_length in X. rewrite rev_length in X. rewrite dot_app by (rewrite rev_length; lia). rewrite (contig_axes_dot r1 t1 1 C) by lia. lia.
Qed.
Print Assumptions C57_collapse_contiguous.

Example C57_ex : collapse_contiguous [4; 2; 3; 5] [40; 15; 5; 1] = ([4; 30], [40; 1]) /\
  collapse_contiguous [2; 3] [6; 2] = ([2; 3], [6; 2]) /\ collapse_contiguous [2; 3] [3; 1] = ([6], [1]).
Proof. vm_compute. repeat split. Qed.

From Coq Require Import ZArith String.
(** a transposed view of [[[1,2],[3,4],[5,6]]] and its exact text; two empty arrays of different
    shape print alike, which is why emptiness is excluded *)
Definition digit (n : nat) : list ascii := [ascii_of_nat (48 + n)].
Example C56_ex : let h := [Some [1; 2; 3; 4; 5; 6]] in let a := fresh_arr 0 6 [3; 2] in
  valid h a /\ 0 < prod (a_shape a) /\ List.length (a_shape a) <= MAX_DIMS /\
  (r <- nd_transpose ByRef a 0%Z 1%Z ;; nd_fmt digit h r)
    = Ok (list_ascii_of_string "[  [1, 3, 5],  [2, 4, 6]]"%string) /\
  nd_fmt digit h (fresh_arr 0 6 [2; 1; 3]) = Ok (list_ascii_of_string "[  [    [1, 2, 3]  ],  [    [4, 5, 6]  ]]"%string) /\
  nd_fmt digit h (fresh_arr 0 6 []) = Ok (list_ascii_of_string "1"%string) /\
  nd_fmt digit h (fresh_arr 0 6 [0]) = nd_fmt digit h (fresh_arr 0 6 [0; 3]).
Proof.
  cbn [nd_transpose]. split; [|vm_compute; repeat split; repeat constructor].
  split; [reflexivity|]. intros idx R. apply in_indices in R. cbn in R. destruct R as [<-|[<-|[<-|[<-|[<-|[<-|[]]]]]]]; eexists; reflexivity.
Qed.
