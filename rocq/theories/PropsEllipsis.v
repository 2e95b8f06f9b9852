(** PropsEllipsis.v: C74, what an ellipsis or a dot in einsum subscripts does. *)
From Coq Require Import List Arith Lia Bool ZArith.
From Verif Require Import Base Spec Layout SpecFacts LayoutFacts Views ViewsFacts Kernels Access HeapFacts KernelFacts
  Reduce Einsum EinsumFacts EinsumParse Chain ChainFacts PropsOps PropsViews EinsumFacts8 PropsEinsum.
Import ListNotations.
Open Scope res_scope.

(** ** Specification *)
(** What einsum takes an operand with subscripts [pre ++ ".." ++ post] for: the axes of the
    ellipsis stay at index 0, the letters of [post] use the strides of the last axes, but their
    lengths are taken from the axes that stand at the position of the letter in the string. *)
Definition seen (p q : nat) (a : arr) : arr :=
  mkArr (a_blk a) (a_off a) (a_len a) (a_cap a)
    (firstn p (a_shape a) ++ firstn q (skipn (p + 2) (a_shape a)))
    (firstn p (a_stride a) ++ skipn (length (a_shape a) - q) (a_stride a)) (a_fl a).

(** subscripts and operand, and the plain subscripts and operand they amount to *)
Inductive reads : list Z -> arr -> list Z -> arr -> Prop :=
| reads_plain s a : reads s a s a
| reads_ellipsis pre post a : Forall letter (pre ++ post) -> NoDup (pre ++ post) -> length (a_stride a) = length (a_shape a) ->
    length (a_shape a) <= 32 -> length pre + length post <= length (a_shape a) ->
    (post <> [] -> length pre + length post + 2 <= length (a_shape a)) ->
    reads (pre ++ [46; 46]%Z ++ post) a (pre ++ post) (seen (length pre) (length post) a).
Inductive reads_all : list (list Z) -> list arr -> list (list Z) -> list arr -> Prop :=
| reads_no_more_subs ops : reads_all [] ops [] ops
| reads_no_more_ops subs : reads_all subs [] subs []
| reads_one s a s' a' subs ops subs' ops' : reads s a s' a' -> reads_all subs ops subs' ops' ->
    reads_all (s :: subs) (a :: ops) (s' :: subs') (a' :: ops').

(** ** parsing a run of distinct letters *)
Fixpoint record (cs : list Z) (ns : list nat) (counts dims : Z -> nat) : option ((Z -> nat) * (Z -> nat)) :=
  match cs, ns with
  | c :: cs', n :: ns' =>
      let counts' := set_at counts c (counts c + 1) in
      if counts' c =? 1 then record cs' ns' counts' (set_at dims c n)
      else if dims c =? n then record cs' ns' counts' dims else None
  | _, _ => Some (counts, dims)
  end.
Fixpoint firsts (cs : list Z) (i : nat) (first : Z -> option nat) : Z -> option nat :=
  match cs with
  | [] => first
  | c :: cs' => firsts cs' (S i) (set_at first c (Some i))
  end.
Lemma firsts_other cs : forall i first c, ~ In c cs -> firsts cs i first c = first c.
Proof.
  induction cs as [|x cs IH]; intros i first c N; [reflexivity|]. cbn [firsts]. rewrite IH by (intros I; apply N; now right).
  apply set_at_other. intros ->. apply N. now left.
Qed.
Lemma record_app a b : forall na nb counts dims, length na = length a ->
  record (a ++ b) (na ++ nb) counts dims = match record a na counts dims with Some (c, d) => record b nb c d | None => None end.
Proof.
  induction a as [|x a IH]; intros [|n na] nb counts dims L; try discriminate; [reflexivity|]. injection L as L. cbn [app record].
  destruct (set_at counts x (counts x + 1) x =? 1); [now apply IH|]. destruct (dims x =? n); [now apply IH|reflexivity].
Qed.

Lemma parse_run shape bd ell r : forall cs ns i ax L old R first counts dims, letters cs -> NoDup cs -> (forall c, In c cs -> first c = None) ->
  (if ell : bool then 2 <= i /\ ax = i - 2 + bd else ax = i) -> length ns = length cs ->
  (forall k n, nth_error ns k = Some n -> nth_error shape (i + k) = Some n) -> ax + length cs <= length shape ->
  length L = ax -> length old = length cs ->
  parse_go shape bd i (cs ++ r) (L ++ old ++ R) first counts dims ell false =
  match record cs ns counts dims with
  | None => Panic
  | Some (c, d) => parse_go shape bd (i + length cs) r (L ++ cs ++ R) (firsts cs i first) c d ell false
  end.
Proof.
  induction cs as [|c cs IH]; intros [|n ns] i ax L [|z old] R first counts dims LC ND F AX LN SH B LL LO; try discriminate.
  - cbn [app record firsts length]. now rewrite Nat.add_0_r.
  - inversion LC as [|? ? AC LC']; subst. inversion ND as [|? ? NI ND']; subst. injection LN as LN. injection LO as LO. cbn [length] in B.
    cbn [app parse_go record firsts length]. rewrite AC.
    assert (EA : (if ell then j <- csub i 2 ;; Ok (j + bd) else Ok i) = Ok (length L)).
    { destruct ell; [|now subst]. destruct AX as [A1 A2]. unfold csub. rewrite (proj2 (Nat.ltb_ge _ _)) by exact A1. cbn [bind]. now rewrite A2. }
    rewrite EA. cbn [bind]. rewrite (proj2 (Nat.ltb_lt _ _)) by lia. cbn [guard bind]. rewrite (F c (or_introl eq_refl)).
    rewrite (vset_mid L z (old ++ R) c (length L) eq_refl). cbn [bind].
    assert (EN : vget shape i = Ok n). { apply vget_error. rewrite <- (Nat.add_0_r i). now apply SH. }
    rewrite EN. cbn [bind].
    assert (AX' : if ell then 2 <= S i /\ length (L ++ [c]) = S i - 2 + bd else length (L ++ [c]) = S i) by (rewrite app_length; cbn [length]; destruct ell; lia).
    assert (F' : forall x, In x cs -> set_at first c (Some i) x = None) by (intros x I; rewrite set_at_other by (intros ->; contradiction); apply F; now right).
    assert (SH' : forall k m, nth_error ns k = Some m -> nth_error shape (S i + k) = Some m) by (intros k m K; replace (S i + k) with (i + S k) by lia; now apply SH).
    assert (B' : length (L ++ [c]) + length cs <= length shape) by (rewrite app_length; cbn [length]; lia).
    assert (EL : L ++ c :: old ++ R = (L ++ [c]) ++ old ++ R) by now rewrite <- app_assoc.
    assert (EL' : L ++ c :: cs ++ R = (L ++ [c]) ++ cs ++ R) by now rewrite <- app_assoc.
    replace (i + S (length cs)) with (S i + length cs) by lia. rewrite EL, EL'.
    rewrite !set_at_same. destruct (counts c + 1 =? 1).
    + now apply (IH ns (S i) (length (L ++ [c]))).
    + destruct (dims c =? n); cbn [guard bind]; [|reflexivity]. now apply (IH ns (S i) (length (L ++ [c]))).
Qed.

Lemma zero_range_zeros : forall n L k R, k = length L -> zero_range (L ++ repeat 0%Z n ++ R) k n = Ok (L ++ repeat 0%Z n ++ R).
Proof.
  induction n as [|n IH]; intros L k R ->; [reflexivity|]. cbn [repeat app zero_range]. rewrite (vset_mid L 0%Z _ 0%Z (length L) eq_refl). cbn [bind].
  replace (L ++ 0%Z :: repeat 0%Z n ++ R) with ((L ++ [0%Z]) ++ repeat 0%Z n ++ R) by now rewrite <- app_assoc.
  apply IH. rewrite app_length. cbn. lia.
Qed.

Lemma nth_error_skipn_add {A} (l : list A) m k : nth_error (skipn m l) k = nth_error l (m + k).
Proof. revert l. induction m as [|m IH]; intros [|x l]; cbn [skipn plus nth_error]; auto. now destruct k. Qed.
Lemma nth_error_firstn_lt {A} (l : list A) : forall m k x, nth_error (firstn m l) k = Some x -> nth_error l k = Some x.
Proof. induction l as [|y l IH]; intros [|m] [|k] x H; cbn in *; try discriminate; eauto. Qed.

Lemma skipn_twice {A} (l : list A) : forall m k, skipn k (skipn m l) = skipn (m + k) l.
Proof. induction l as [|x l IH]; intros [|m] k; cbn [skipn plus]; auto. now rewrite skipn_nil. Qed.

Lemma zeros_split a b : a <= b -> repeat 0%Z b = repeat 0%Z a ++ repeat 0%Z (b - a).
Proof. intros H. rewrite <- repeat_app. f_equal. lia. Qed.

Section Ellipsis.
  Variables (pre post : list Z) (a : arr).
  Hypothesis LC : letters (pre ++ post).
  Hypothesis ND : NoDup (pre ++ post).
  Hypothesis W : length (a_stride a) = length (a_shape a).
  Hypothesis MD : length (a_shape a) <= 32.
  Hypothesis FIT : length pre + length post <= length (a_shape a).
  Hypothesis FIT2 : post <> [] -> length pre + length post + 2 <= length (a_shape a).
  Let p := length pre.
  Let q := length post.
  Let nd := length (a_shape a).
  Let bd := nd - (p + q).
  Let ns1 := firstn p (a_shape a).
  Let ns2 := firstn q (skipn (p + 2) (a_shape a)).

  Lemma letters_split : letters pre /\ letters post.
  Proof. apply Forall_app in LC. exact LC. Qed.
  Lemma ns_lengths : length ns1 = p /\ length ns2 = q.
  Proof.
    unfold ns1, ns2. rewrite !firstn_length, skipn_length. fold nd. fold p q nd in FIT, FIT2. split; [lia|].
    destruct post as [|c l] eqn:E; [unfold q; cbn; lia|]. assert (c :: l <> []) by discriminate. specialize (FIT2 H). lia.
  Qed.
  Lemma nodup_parts : NoDup pre /\ NoDup post /\ forall c, In c post -> ~ In c pre.
  Proof.
    clear - ND. induction pre as [|x l IH]; cbn [app] in *; [split; [constructor|]; split; auto|]. inversion ND; subst.
    destruct (IH H2) as (A & B & C). split; [constructor; [intros I; apply H1, in_or_app; now left|exact A]|]. split; [exact B|].
    intros c I [<-|J]; [apply H1, in_or_app; now right|eapply C; eauto].
  Qed.

  Lemma filter_count : length (filter is_alnum (pre ++ [46; 46]%Z ++ post)) = p + q.
  Proof.
    destruct letters_split as [L1 L2]. rewrite !filter_app, !app_length, (letters_filter pre L1), (letters_filter post L2). reflexivity.
  Qed.
  Lemma ascii_dots : forallb is_ascii (pre ++ [46; 46]%Z ++ post) = true.
  Proof. destruct letters_split as [L1 L2]. rewrite !forallb_app, (letters_ascii pre L1), (letters_ascii post L2). reflexivity. Qed.

  Definition elabels : list Z := pre ++ repeat 0%Z bd ++ post ++ repeat 0%Z (32 - nd).
  Definition plabels : list Z := pre ++ post ++ repeat 0%Z (32 - (p + q)).

  Lemma parse_ellipsis counts dims : parse_operand (pre ++ [46; 46]%Z ++ post) (a_shape a) counts dims =
    match record (pre ++ post) (ns1 ++ ns2) counts dims with
    | None => Panic
    | Some (c, d) => Ok (elabels, c, d, bd)
    end.
  Proof.
    destruct letters_split as [L1 L2]. destruct ns_lengths as [N1 N2]. destruct nodup_parts as (D1 & D2 & D3). fold p q nd in FIT, FIT2, MD.
    unfold parse_operand. rewrite ascii_dots, filter_count. cbn [guard bind]. fold nd. rewrite (proj2 (Nat.ltb_ge _ _)) by lia. fold bd.
    rewrite (record_app pre post ns1 ns2 counts dims N1).
    change MAX_DIMS with 32.
    rewrite (zeros_split p 32) by lia.
    rewrite <- (app_nil_l (repeat 0%Z p ++ _)).
    rewrite (parse_run (a_shape a) bd false ([46; 46]%Z ++ post) pre ns1 0 0 [] (repeat 0%Z p) (repeat 0%Z (32 - p))); auto;
      [|intros k n K; apply (nth_error_firstn_lt _ _ _ _ K)|fold nd p; lia|now rewrite repeat_length].
    destruct (record pre ns1 counts dims) as [[c d]|]; [|reflexivity]. cbn [app]. fold p. rewrite Nat.add_0_l.
    cbn [parse_go]. change (is_alpha 46) with false. change (46 =? DOT)%Z with true. cbn [negb guard bind].
    rewrite (zeros_split bd (32 - p)) by (unfold bd; lia).
    rewrite (zero_range_zeros bd pre p) by reflexivity. cbn [bind parse_go guard].
    rewrite (zeros_split q (32 - p - bd)) by (unfold bd; lia).
    assert (EP : post = [] \/ post <> []) by (destruct post; [now left|right; discriminate]).
    destruct EP as [EP|NE].
    - assert (Q0 : q = 0) by (unfold q; rewrite EP; reflexivity). unfold elabels. rewrite EP, Q0. cbn [app repeat].
      assert (ER : record [] ns2 c d = Some (c, d)) by reflexivity. rewrite ER. cbn [parse_go bind negb guard orb]. f_equal. f_equal. f_equal. f_equal.
      f_equal. f_equal. f_equal. unfold bd. lia.
    - specialize (FIT2 NE).
      replace (pre ++ repeat 0%Z bd ++ repeat 0%Z q ++ repeat 0%Z (32 - p - bd - q)) with ((pre ++ repeat 0%Z bd) ++ repeat 0%Z q ++ repeat 0%Z (32 - p - bd - q)) by now rewrite <- app_assoc.
      rewrite <- (app_nil_r post) at 1.
      rewrite (parse_run (a_shape a) bd true [] post ns2 (S (S p)) (p + bd) (pre ++ repeat 0%Z bd) (repeat 0%Z q) (repeat 0%Z (32 - p - bd - q))); auto.
      + destruct (record post ns2 c d) as [[c' d']|]; [|reflexivity]. cbn [parse_go bind negb guard orb]. unfold elabels. f_equal. f_equal. f_equal. f_equal.
        rewrite <- app_assoc. do 3 f_equal. f_equal. unfold bd. lia.
      + intros y I. rewrite firsts_other by now apply D3. reflexivity.
      + split; lia.
      + intros k n K. apply nth_error_firstn_lt in K. rewrite nth_error_skipn_add in K. replace (S (S p) + k) with (p + 2 + k) by lia. exact K.
      + fold q nd. unfold bd. lia.
      + rewrite app_length, repeat_length. reflexivity.
      + now rewrite repeat_length.
  Qed.

  Lemma parse_plain counts dims : parse_operand (pre ++ post) (ns1 ++ ns2) counts dims =
    match record (pre ++ post) (ns1 ++ ns2) counts dims with
    | None => Panic
    | Some (c, d) => Ok (plabels, c, d, 0)
    end.
  Proof.
    destruct ns_lengths as [N1 N2]. fold p q nd in FIT, MD.
    unfold parse_operand. rewrite letters_ascii, letters_filter by exact LC. cbn [guard bind]. rewrite !app_length, N1, N2. fold p q.
    rewrite (proj2 (Nat.ltb_ge _ _)) by lia. rewrite Nat.sub_diag. change MAX_DIMS with 32.
    rewrite (zeros_split (p + q) 32) by lia. rewrite <- (app_nil_r (pre ++ post)) at 1. rewrite <- (app_nil_l (repeat 0%Z (p + q) ++ _)).
    rewrite (parse_run (ns1 ++ ns2) 0 false [] (pre ++ post) (ns1 ++ ns2) 0 0 [] (repeat 0%Z (p + q)) (repeat 0%Z (32 - (p + q)))); auto;
      [|rewrite !app_length; lia|rewrite !app_length; lia|rewrite repeat_length, app_length; reflexivity].
    destruct (record _ _ counts dims) as [[c d]|]; [|reflexivity]. cbn [parse_go bind negb guard app orb Nat.eqb]. unfold plabels. now rewrite <- app_assoc.
  Qed.
End Ellipsis.

(** ** strides of the labels *)
Definition nonneg (labels : list Z) : Prop := Forall (fun l => (0 <= l)%Z) labels.

Lemma label_nonneg labels j : nonneg labels -> label_of labels j = vget labels j.
Proof.
  intros N. unfold label_of. destruct (vget labels j) as [l| |] eqn:E; [|reflexivity|reflexivity]. cbn [bind].
  assert (0 <= l)%Z. { unfold vget in E. destruct (nth_error labels j) as [x|] eqn:EX; [|discriminate]. injection E as ->. apply nth_error_In in EX. now apply (proj1 (Forall_forall _ _) N). }
  now rewrite (proj2 (Z.ltb_ge _ _)) by lia.
Qed.
Lemma stride_sum_lsum label : forall L S Lp Sp acc, nonneg (Lp ++ L) -> length Sp = length Lp ->
  stride_sum (Lp ++ L) (Sp ++ S) label (length Lp) (Nat.min (length S) (length L)) acc = Ok (acc + lsum L S label).
Proof.
  induction L as [|l L IH]; intros [|s S] Lp Sp acc N E; cbn [length Nat.min stride_sum lsum]; try (now rewrite Nat.add_0_r).
  rewrite label_nonneg by exact N. rewrite (vget_mid Lp l L (length Lp) eq_refl). cbn [bind].
  rewrite (vget_mid Sp s S (length Lp)) by now symmetry.
  replace (Lp ++ l :: L) with ((Lp ++ [l]) ++ L) in * by now rewrite <- app_assoc.
  replace (Sp ++ s :: S) with ((Sp ++ [s]) ++ S) by now rewrite <- app_assoc.
  replace (Datatypes.S (length Lp)) with (length (Lp ++ [l])) by (rewrite app_length; cbn [length]; lia).
  destruct (label =? l)%Z; cbn [bind]; (rewrite IH; [f_equal; lia|exact N|rewrite !app_length; cbn [length]; lia]).
Qed.
Lemma operand_strides_lsum labels stride iter : nonneg labels ->
  operand_strides labels stride iter = mapM (fun l => if (l =? 0)%Z then Panic else Ok (lsum labels stride l)) iter.
Proof.
  intros N. unfold operand_strides. apply mapM_ext. intros l _. destruct (l =? 0)%Z; [reflexivity|].
  apply (stride_sum_lsum l labels stride [] [] 0 N eq_refl).
Qed.
Lemma lsum_app l : forall L S L' S', length L = length S -> lsum (L ++ L') (S ++ S') l = lsum L S l + lsum L' S' l.
Proof. induction L as [|x L IH]; intros [|s S] L' S' E; try discriminate; cbn [app lsum]; [reflexivity|]. rewrite IH by now injection E. lia. Qed.
Lemma lsum_zeros l : l <> 0%Z -> forall n S, lsum (repeat 0%Z n) S l = 0.
Proof. intros N. induction n as [|n IH]; intros [|s S]; cbn [repeat lsum]; auto. rewrite (proj2 (Z.eqb_neq _ _) N). now rewrite IH. Qed.
Lemma lsum_nil_r L l : lsum L [] l = 0.
Proof. now destruct L. Qed.

Lemma letters_nonneg s : letters s -> nonneg s.
Proof. intros H. eapply Forall_impl; [|exact H]. intros c A. apply is_alpha_pos in A. lia. Qed.
Lemma zeros_nonneg n : nonneg (repeat 0%Z n).
Proof. induction n; constructor; auto. lia. Qed.

Section Strides.
  Variables (pre post : list Z) (a : arr).
  Hypothesis LC : letters (pre ++ post).
  Hypothesis W : length (a_stride a) = length (a_shape a).
  Hypothesis MD : length (a_shape a) <= 32.
  Hypothesis FIT : length pre + length post <= length (a_shape a).

  Lemma elabels_nonneg : nonneg (elabels pre post a).
  Proof. apply Forall_app in LC as [L1 L2]. unfold elabels. apply Forall_app. split; [now apply letters_nonneg|]. apply Forall_app. split; [apply zeros_nonneg|]. apply Forall_app. split; [now apply letters_nonneg|apply zeros_nonneg]. Qed.
  Lemma plabels_nonneg : nonneg (plabels pre post).
  Proof. unfold plabels. rewrite app_assoc. apply Forall_app. split; [now apply letters_nonneg|apply zeros_nonneg]. Qed.

  Lemma same_lsum l : l <> 0%Z ->
    lsum (elabels pre post a) (a_stride a) l = lsum (plabels pre post) (a_stride (seen (length pre) (length post) a)) l.
  Proof.
    intros NZ. unfold elabels, plabels, seen. cbn [a_stride].
    set (p := length pre). set (q := length post). set (nd := length (a_shape a)). fold p q nd in FIT, MD, W.
    set (st := a_stride a). fold st in W.
    assert (E : st = firstn p st ++ (firstn (nd - (p + q)) (skipn p st) ++ skipn (nd - q) st)).
    { rewrite <- (firstn_skipn p st) at 1. f_equal. rewrite <- (firstn_skipn (nd - (p + q)) (skipn p st)) at 1. f_equal. rewrite skipn_twice. f_equal. lia. }
    rewrite E at 1.
    assert (L1 : length (firstn p st) = p) by (rewrite firstn_length; lia).
    assert (L2 : length (firstn (nd - (p + q)) (skipn p st)) = nd - (p + q)) by (rewrite firstn_length, skipn_length; lia).
    assert (L3 : length (skipn (nd - q) st) = q) by (rewrite skipn_length; lia).
    rewrite lsum_app by (now rewrite L1). rewrite lsum_app by (now rewrite L2, repeat_length). rewrite lsum_zeros by exact NZ.
    rewrite <- (app_nil_r (skipn (nd - q) st)) at 1. rewrite lsum_app by now rewrite L3. rewrite lsum_nil_r.
    rewrite lsum_app by (now rewrite L1). rewrite <- (app_nil_r (skipn (nd - q) st)) at 2. rewrite lsum_app by now rewrite L3. rewrite lsum_nil_r. lia.
  Qed.

  Lemma same_strides iter :
    (r <- reshape_operand a (elabels pre post a) ;; let '(l', st) := r in operand_strides l' st iter) =
    (r <- reshape_operand (seen (length pre) (length post) a) (plabels pre post) ;; let '(l', st) := r in operand_strides l' st iter).
  Proof.
    unfold reshape_operand.
    assert (N1 : forallb (fun l => (0 <=? l)%Z) (elabels pre post a) = true).
    { apply forallb_forall. intros x I. apply Z.leb_le. now apply (proj1 (Forall_forall _ _) elabels_nonneg). }
    assert (N2 : forallb (fun l => (0 <=? l)%Z) (plabels pre post) = true).
    { apply forallb_forall. intros x I. apply Z.leb_le. now apply (proj1 (Forall_forall _ _) plabels_nonneg). }
    rewrite N1, N2. cbn [bind]. rewrite (operand_strides_lsum _ _ _ elabels_nonneg), (operand_strides_lsum _ _ _ plabels_nonneg).
    apply mapM_ext. intros l _. destruct (Z.eqb_spec l 0) as [->|NZ]; [reflexivity|]. now rewrite same_lsum.
  Qed.
End Strides.

(** ** parsing of the whole request *)
Lemma parse_out_bd counts : forall cs bd bd' i labels, ~ In DOT cs ->
  parse_out_go bd i cs labels counts false false = parse_out_go bd' i cs labels counts false false.
Proof.
  induction cs as [|c cs IH]; intros bd bd' i labels N; [reflexivity|]. cbn [parse_out_go].
  assert (N' : ~ In DOT cs) by (intros I; apply N; now right). assert (NC : c <> DOT) by (intros ->; apply N; now left).
  destruct (is_alpha c).
  - destruct (guard (negb (counts c =? 0))); [|reflexivity|reflexivity]. cbn [bind]. destruct (guard (negb (existsb (Z.eqb c) cs))); [|reflexivity|reflexivity]. cbn [bind].
    destruct (vset labels i c); [|reflexivity|reflexivity]. cbn [bind]. now apply IH.
  - rewrite (proj2 (Z.eqb_neq _ _) NC). destruct (guard (c =? SPACE)%Z); [|reflexivity|reflexivity]. cbn [bind]. now apply IH.
Qed.
Lemma parse_out_ell counts : forall cs bd i labels l e, ~ In DOT cs -> parse_out_go bd i cs labels counts false false = Ok (l, e) -> e = false.
Proof.
  induction cs as [|c cs IH]; intros bd i labels l e N; cbn [parse_out_go]; [congruence|].
  assert (N' : ~ In DOT cs) by (intros I; apply N; now right). assert (NC : c <> DOT) by (intros ->; apply N; now left).
  destruct (is_alpha c).
  - destruct (guard (negb (counts c =? 0))); [|discriminate|discriminate]. cbn [bind]. destruct (guard (negb (existsb (Z.eqb c) cs))); [|discriminate|discriminate]. cbn [bind].
    destruct (vset labels i c); [|discriminate|discriminate]. cbn [bind]. now apply IH.
  - rewrite (proj2 (Z.eqb_neq _ _) NC). destruct (guard (c =? SPACE)%Z); [|discriminate|discriminate]. cbn [bind]. now apply IH.
Qed.
Lemma parse_output_bd cs bd bd' counts : ~ In DOT cs -> parse_output cs bd counts = parse_output cs bd' counts.
Proof.
  intros N. unfold parse_output. destruct (guard (forallb is_ascii cs)); [|reflexivity|reflexivity]. cbn [bind]. rewrite (parse_out_bd counts cs bd bd' 0 _ N).
  destruct (parse_out_go bd' 0 cs _ counts false false) as [[l e]| |] eqn:E; [|reflexivity|reflexivity]. apply parse_out_ell in E; [|exact N]. subst. reflexivity.
Qed.

Definition zlab : list Z := repeat 0%Z MAX_DIMS.
Definition padded (ops : list arr) (ls : list (list Z)) : list (list Z) := ls ++ repeat zlab (length ops - length ls).

Lemma reads_ptr s a s' a' : reads s a s' a' -> a_ptr a' = a_ptr a.
Proof. now destruct 1. Qed.
Lemma reads_all_ops subs ops subs' ops' : reads_all subs ops subs' ops' -> map a_ptr ops' = map a_ptr ops /\ length ops' = length ops.
Proof.
  induction 1 as [| |s a s' a' subs ops subs' ops' R RA [IH1 IH2]]; [split; reflexivity|split; reflexivity|]. cbn [map length]. now rewrite IH1, IH2, (reads_ptr _ _ _ _ R).
Qed.

Lemma parse_all_sim : forall subs ops subs' ops', reads_all subs ops subs' ops' -> forall c d m m',
  match parse_all subs ops c d m, parse_all subs' ops' c d m' with
  | Ok (ls, c1, d1, _), Ok (ls', c2, d2, _) => c1 = c2 /\ d1 = d2 /\ length ls = length ls' /\
      forall iter, all_strides ops (padded ops ls) iter = all_strides ops' (padded ops' ls') iter
  | Panic, Panic => True
  | _, _ => False
  end.
Proof.
  induction 1 as [ops|subs|s a s' a' subs ops subs' ops' R RA IH]; intros c d m m'.
  - cbn [parse_all]. auto.
  - assert (E : forall x, parse_all subs [] c d x = Ok ([], c, d, x)) by now destruct subs. rewrite !E. auto.
  - cbn [parse_all].
    assert (STEP : forall l l' c1 d1 b b', (forall iter, (r <- reshape_operand a l ;; let '(l1, st) := r in operand_strides l1 st iter) =
        (r <- reshape_operand a' l' ;; let '(l1, st) := r in operand_strides l1 st iter)) ->
      match (r' <- parse_all subs ops c1 d1 (Nat.max m b) ;; let '(ls, c, d, m) := r' in Ok (l :: ls, c, d, m)),
            (r' <- parse_all subs' ops' c1 d1 (Nat.max m' b') ;; let '(ls, c, d, m) := r' in Ok (l' :: ls, c, d, m)) with
      | Ok (ls, c1, d1, _), Ok (ls', c2, d2, _) => c1 = c2 /\ d1 = d2 /\ length ls = length ls' /\
          forall iter, all_strides (a :: ops) (padded (a :: ops) ls) iter = all_strides (a' :: ops') (padded (a' :: ops') ls') iter
      | Panic, Panic => True
      | _, _ => False
      end).
    { intros l l' c1 d1 b b' H. specialize (IH c1 d1 (Nat.max m b) (Nat.max m' b')).
      destruct (parse_all subs ops c1 d1 (Nat.max m b)) as [[[[ls c2] d2] m2]| |]; destruct (parse_all subs' ops' c1 d1 (Nat.max m' b')) as [[[[ls' c3] d3] m3]| |]; try contradiction; cbn [bind]; auto.
      destruct IH as (-> & -> & L & IH). split; [reflexivity|]. split; [reflexivity|]. split; [cbn [length]; congruence|]. intros iter.
      unfold padded. cbn [length app Nat.sub all_strides]. fold (padded ops ls) (padded ops' ls'). rewrite <- IH.
      specialize (H iter). destruct (reshape_operand a l) as [[l1 st1]| |]; destruct (reshape_operand a' l') as [[l2 st2]| |]; cbn [bind] in *; try discriminate; try (rewrite H || rewrite <- H); reflexivity. }
    destruct R as [s a|pre post a LT ND W MD FIT FIT2].
    + pose proof (noob_parse_operand s (a_shape a) c d) as NO. destruct (parse_operand s (a_shape a) c d) as [[[[l c1] d1] b]| |]; [|exact I|now apply NO]. cbn [bind]. now apply STEP.
    + assert (LC : letters (pre ++ post)) by (eapply Forall_impl; [|exact LT]; intros x; apply letter_alpha).
      rewrite (parse_ellipsis pre post a LC ND W MD FIT FIT2). cbn [a_shape seen].
      rewrite (parse_plain pre post a LC ND W MD FIT FIT2).
      destruct (record _ _ c d) as [[c1 d1]|]; [|exact I]. cbn [bind]. apply STEP. intros iter. now apply same_strides.
Qed.

Lemma not_one {A} (x y : res A) (ops : list arr) (labels : list (list Z)) (f : arr -> list Z -> res A) : length ops <> 1 ->
  match ops, labels with [a], l :: _ => f a l | _, _ => x end = x.
Proof. destruct ops as [|a [|b ops]]; cbn [length]; try reflexivity. now intros []. Qed.

(** ** C74 *)
Theorem C74_ellipsis : forall T (zero one : T) add mul fma (h : heap T) ops subs out ops' subs',
  reads_all subs ops subs' ops' -> length ops <> 1 -> ~ In 46%Z out ->
  nd_einsum zero one add mul fma h ops subs out = nd_einsum zero one add mul fma h ops' subs' out.
Proof.
  intros T zero one add mul fma h ops subs out ops' subs' RA N1 NO. destruct (reads_all_ops _ _ _ _ RA) as [EP EL].
  assert (E : prepare_einsum ops subs out = prepare_einsum ops' subs' out).
  { unfold prepare_einsum. rewrite EL. destruct (guard (length ops <? MAX_ARGS)); [|reflexivity|reflexivity]. cbn [bind].
    pose proof (parse_all_sim _ _ _ _ RA (fun _ => 0) (fun _ => 0) 0 0) as P.
    destruct (parse_all subs ops _ _ 0) as [[[[ls c1] d1] m1]| |]; destruct (parse_all subs' ops' _ _ 0) as [[[[ls' c2] d2] m2]| |]; try contradiction; [|reflexivity].
    destruct P as (<- & <- & LL & AS). cbn [bind]. cbv zeta. rewrite (parse_output_bd out m1 m2 c1 NO).
    destruct (parse_output out m2 c1) as [outl| |]; [|reflexivity|reflexivity]. cbn [bind].
    fold zlab. rewrite <- LL. fold (padded ops ls). assert (EP' : ls' ++ repeat zlab (length ops - length ls) = padded ops' ls') by (unfold padded; now rewrite EL, LL). rewrite EP'.
    rewrite (not_one (Ok tt) (Ok tt) ops (padded ops ls) (fun a l => _ <- reshape_for_einsum a l outl ;; Ok tt) N1).
    rewrite (not_one (Ok tt) (Ok tt) ops' (padded ops' ls') (fun a l => _ <- reshape_for_einsum a l outl ;; Ok tt)) by congruence. cbn [bind].
    destruct (extra_labels _ _ _ _) as [extra| |]; [|reflexivity|reflexivity]. cbn [bind]. now rewrite AS. }
  unfold nd_einsum. now rewrite E, EP.
Qed.
Print Assumptions C74_ellipsis.

(** The elements einsum uses are those with index 0 along the axes of the ellipsis; the lengths
    are right when nothing follows the ellipsis or when it stands for two axes. *)
Lemma dot_app2 : forall l s l' s', length l = length s -> dot (l ++ l') (s ++ s') = dot l s + dot l' s'.
Proof. induction l as [|x l IH]; intros [|y s] l' s' E; try discriminate; cbn [app dot]; [reflexivity|]. rewrite IH by now injection E. lia. Qed.
Lemma dot_zeros : forall n s, dot (repeat 0 n) s = 0.
Proof. induction n as [|n IH]; intros [|x s]; cbn [repeat dot Nat.mul plus]; auto. Qed.

Theorem C74_seen : forall T (h : heap T) a p q, length (a_stride a) = length (a_shape a) -> p + q <= length (a_shape a) ->
  (forall idx, length idx = p + q ->
     get h (seen p q a) idx = get h a (firstn p idx ++ repeat 0 (length (a_shape a) - (p + q)) ++ skipn p idx)) /\
  (q = 0 \/ length (a_shape a) = p + q + 2 ->
     a_shape (seen p q a) = firstn p (a_shape a) ++ skipn (length (a_shape a) - q) (a_shape a)).
Proof.
  intros T h a p q W F. set (nd := length (a_shape a)) in *. split.
  - intros idx L. unfold get, seen. cbn [a_blk a_off a_stride]. fold nd. f_equal. f_equal. set (st := a_stride a) in *.
    assert (E : st = firstn p st ++ (firstn (nd - (p + q)) (skipn p st) ++ skipn (nd - q) st)).
    { rewrite <- (firstn_skipn p st) at 1. f_equal. rewrite <- (firstn_skipn (nd - (p + q)) (skipn p st)) at 1. f_equal. rewrite skipn_twice. f_equal. lia. }
    rewrite E at 3. rewrite dot_app2 by (rewrite !firstn_length; lia). rewrite dot_app2 by (rewrite repeat_length, firstn_length, skipn_length; lia).
    rewrite dot_zeros. rewrite <- (firstn_skipn p idx) at 1. rewrite dot_app2 by (rewrite !firstn_length; lia). reflexivity.
  - intros H. cbn [seen a_shape]. f_equal. destruct H as [->|H].
    + cbn [firstn]. rewrite Nat.sub_0_r. symmetry. apply skipn_all.
    + replace (nd - q) with (p + 2) by lia. apply firstn_all2. rewrite skipn_length. fold nd. lia.
Qed.
Print Assumptions C74_seen.

(** values of such a request *)
Theorem C74_value : forall T (zero one : T) add mul, is_csr zero one add mul ->
  forall (h : heap T) ops subs ops' subs' vals out sm dm, reads_all subs ops subs' ops' -> length ops <> 1 ->
  Forall (Forall letter) subs' -> Forall letter out ->
  NoDup (out ++ sm) -> (forall l, In l (out ++ sm) <-> exists s, In s subs' /\ In l s) ->
  out ++ sm <> [] -> length (out ++ sm) <= 32 -> length ops <= 15 ->
  Forall2 (fun s a => a_shape a = map dm s /\ length s <= 32) subs' ops' ->
  Forall2 (holds h) ops' vals -> (forall l, In l (out ++ sm) -> 0 < dm l) ->
  exists h' r, nd_einsum zero one (okadd add) (okadd mul) (okfma add mul) h ops subs out = Ok (h', r) /\
    fresh_result h h' r (map dm out) (fun oidx => Ok (einsum_value zero one add mul dm subs' vals out sm oidx)).
Proof.
  intros T zero one add mul CSR h ops subs ops' subs' vals out sm dm RA N1 LS LO ND COV NE LM LA FS FH PD.
  destruct (reads_all_ops _ _ _ _ RA) as [_ EL].
  rewrite (C74_ellipsis T zero one (okadd add) (okadd mul) (okfma add mul) h ops subs out ops' subs' RA N1).
  - eapply C27_einsum_partial; eauto. now rewrite EL.
  - apply letters_no_dot. now apply letter_letters.
Qed.
Print Assumptions C74_value.

(** ** letters at positions beyond the number of axes *)
Lemma parse_go_position shape bd : forall cs i labels first counts dims ell check r,
  parse_go shape bd i cs labels first counts dims ell check = Ok r -> forall j c, nth_error cs j = Some c -> is_alpha c = true -> i + j < length shape.
Proof.
  induction cs as [|x cs IH]; intros i labels first counts dims ell check r E j c J A; [now destruct j|]. cbn [parse_go] in E.
  assert (NX : forall l f k d e ch, parse_go shape bd (S i) cs l f k d e ch = Ok r -> j <> 0 -> i + j < length shape).
  { intros l f k d e ch E' J0. destruct j as [|j]; [now destruct J0|]. cbn [nth_error] in J. rewrite <- Nat.add_succ_comm. eapply IH; eauto. }
  destruct check.
  - apply guard_inv in E as [D E]. apply Z.eqb_eq in D. eapply NX; [exact E|]. intros ->. cbn in J. injection J as ->. subst c. discriminate.
  - destruct (is_alpha x) eqn:AX.
    + apply bind_Ok_inv in E as (ax & _ & E). apply guard_inv in E as [_ E]. apply bind_Ok_inv in E as (l1 & _ & E).
      apply bind_Ok_inv in E as (n & EN & E). cbv zeta in E.
      destruct j as [|j]; [rewrite Nat.add_0_r; unfold vget in EN; destruct (nth_error shape i) eqn:EX; [|discriminate]; apply nth_error_Some; congruence|].
      destruct (_ =? 1) in E; [eapply NX; eauto|]. apply guard_inv in E as [_ E]. eapply NX; eauto.
    + assert (J0 : j <> 0) by (intros ->; cbn in J; congruence). destruct (x =? DOT)%Z.
      * apply guard_inv in E as [_ E]. apply bind_Ok_inv in E as (l1 & _ & E). eapply NX; eauto.
      * apply guard_inv in E as [_ E]. eapply NX; eauto.
Qed.
Lemma parse_all_position : forall subs ops c d m r, parse_all subs ops c d m = Ok r -> forall k s a j x, nth_error subs k = Some s -> nth_error ops k = Some a ->
  nth_error s j = Some x -> is_alpha x = true -> j < length (a_shape a).
Proof.
  induction subs as [|s0 subs IH]; intros ops c d m r E k s a j x K1 K2 J A; [now destruct k|]. destruct ops as [|a0 ops]; [now destruct k|]. cbn [parse_all] in E.
  apply bind_Ok_inv in E as ([[[l c1] d1] b] & E1 & E). apply bind_Ok_inv in E as (r2 & E2 & _). destruct k as [|k]; [|eapply IH; eauto].
  injection K1 as ->. injection K2 as ->. unfold parse_operand in E1. apply guard_inv in E1 as [_ E1]. destruct (_ <? _); [discriminate|].
  apply bind_Ok_inv in E1 as (r3 & E3 & _). apply (parse_go_position _ _ _ _ _ _ _ _ _ _ _ E3 j x J A).
Qed.
Lemma einsum_panics T (zero one : T) add mul fma (h : heap T) ops subs out :
  (forall r, prepare_einsum ops subs out <> Ok r) -> nd_einsum zero one add mul fma h ops subs out = Panic.
Proof.
  intros N. unfold nd_einsum. pose proof (prepare_no_oob ops subs out). destruct (prepare_einsum ops subs out) as [r| |]; [now destruct (N r)|reflexivity|contradiction].
Qed.

(** A letter whose position in the string is not below the number of axes panics: in particular
    letters after an ellipsis that stands for fewer than two axes. *)
Theorem C74_position_panics : forall T (zero one : T) add mul fma (h : heap T) ops subs out k s a j c,
  nth_error subs k = Some s -> nth_error ops k = Some a -> nth_error s j = Some c -> letter c -> length (a_shape a) <= j ->
  nd_einsum zero one add mul fma h ops subs out = Panic.
Proof.
  intros T zero one add mul fma h ops subs out k s a j c K1 K2 J A L. apply einsum_panics. intros r E. unfold prepare_einsum in E.
  apply guard_inv in E as [_ E]. apply bind_Ok_inv in E as (r1 & E1 & _).
  pose proof (parse_all_position _ _ _ _ _ _ E1 k s a j c K1 K2 J ltac:(now apply letter_alpha)). lia.
Qed.
Print Assumptions C74_position_panics.
Theorem C74_short_panics : forall T (zero one : T) add mul fma (h : heap T) ops subs out k pre post a,
  nth_error subs k = Some (pre ++ [46; 46]%Z ++ post) -> nth_error ops k = Some a -> Forall letter post -> post <> [] ->
  length (a_shape a) < length pre + length post + 2 ->
  nd_einsum zero one add mul fma h ops subs out = Panic.
Proof.
  intros T zero one add mul fma h ops subs out k pre post a K1 K2 LP NE L.
  destruct (exists_last NE) as (l & c & ->). rewrite app_length in L. cbn [length] in L.
  apply (C74_position_panics T zero one add mul fma h ops subs out k _ a (length pre + (2 + length l)) c K1 K2).
  - rewrite nth_error_app2 by lia. replace (length pre + (2 + length l) - length pre) with (2 + length l) by lia. cbn [app plus nth_error].
    rewrite nth_error_app2, Nat.sub_diag by lia. reflexivity.
  - apply Forall_app in LP as [_ LP]. now inversion LP.
  - lia.
Qed.
Print Assumptions C74_short_panics.

(** ** one operand *)
(** the attempt to use a view stops at the first letter that is not in the output *)
Lemma rse_prefix labels out shape stride : forall cs idim n nsh nst,
  (forall j c, nth_error cs j = Some c -> label_of labels (idim + j) = Ok c /\ c <> 0%Z) ->
  idim + length cs + n <= length shape -> idim + length cs + n <= length stride -> length nsh = length out -> length nst = length out ->
  ((exists c, In c cs /\ ~ In c out) -> rse_go labels out shape stride idim (length cs + n) nsh nst = Ok None) /\
  (incl cs out -> exists nsh' nst', length nsh' = length out /\ length nst' = length out /\
     rse_go labels out shape stride idim (length cs + n) nsh nst = rse_go labels out shape stride (idim + length cs) n nsh' nst').
Proof.
  induction cs as [|c cs IH]; intros idim n nsh nst HL LS LT LN LM.
  - split; [intros (c & [] & _)|]. intros _. exists nsh, nst. split; [exact LN|]. split; [exact LM|]. cbn [length plus]. now rewrite Nat.add_0_r.
  - cbn [length] in LS, LT. cbn [length plus rse_go]. destruct (HL 0 c eq_refl) as [E0 NZ]. rewrite Nat.add_0_r in E0. rewrite E0. cbn [bind]. rewrite (proj2 (Z.eqb_neq _ _) NZ).
    destruct (position out c) as [ax|] eqn:P.
    + pose proof (position_lt _ _ _ P) as LA. destruct (position_Some _ _ _ P) as [PA _].
      rewrite (ViewsFacts.vget_nth shape idim 0) by lia. cbn [bind]. destruct (upd_spec nsh ax (nth idim shape 0)) as (nsh1 & -> & L1 & _); [lia|]. cbn [bind].
      rewrite (ViewsFacts.vget_nth stride idim 0) by lia. cbn [bind]. rewrite (ViewsFacts.vget_nth nst ax 0) by lia. cbn [bind].
      destruct (upd_spec nst ax (nth ax nst 0 + nth idim stride 0)) as (nst1 & -> & L2 & _); [lia|]. cbn [bind].
      destruct (IH (S idim) n nsh1 nst1) as [IH1 IH2]; [intros j x H; rewrite Nat.add_succ_comm; now apply HL|lia|lia|congruence|congruence|].
      split.
      * intros (x & [<-|I] & N); [destruct N; now apply nth_error_In with ax|]. apply IH1. eauto.
      * intros IN. destruct IH2 as (n1 & n2 & A1 & A2 & A3); [intros x I; apply IN; now right|]. exists n1, n2. rewrite A3. split; [exact A1|]. split; [exact A2|].
        f_equal. lia.
    + apply position_None in P. split; [reflexivity|]. intros IN. destruct P. apply IN. now left.
Qed.

(** ** output subscripts *)
Fixpoint accept (counts : Z -> nat) (cs r : list Z) : bool :=
  match cs with
  | [] => true
  | c :: cs' => negb (counts c =? 0) && negb (existsb (Z.eqb c) (cs' ++ r)) && accept counts cs' r
  end.
Lemma out_run bd ell counts r : forall cs i ax L old R, letters cs ->
  (if ell : bool then 2 <= i /\ ax = i - 2 + bd else ax = i) -> length L = ax -> length old = length cs ->
  parse_out_go bd i (cs ++ r) (L ++ old ++ R) counts ell false =
  if accept counts cs r then parse_out_go bd (i + length cs) r (L ++ cs ++ R) counts ell false else Panic.
Proof.
  induction cs as [|c cs IH]; intros i ax L [|z old] R LC AX LL LO; try discriminate.
  - cbn [app accept length]. now rewrite Nat.add_0_r.
  - inversion LC as [|? ? AC LC']; subst. injection LO as LO. cbn [app parse_out_go accept length]. rewrite AC.
    destruct (negb (counts c =? 0)); [|reflexivity]. cbn [guard bind andb]. destruct (negb (existsb (Z.eqb c) (cs ++ r))); [|reflexivity]. cbn [guard bind andb].
    assert (EA : (if ell then j <- csub i 2 ;; Ok (j + bd) else Ok i) = Ok (length L)).
    { destruct ell; [|now subst]. destruct AX as [A1 A2]. unfold csub. rewrite (proj2 (Nat.ltb_ge _ _)) by exact A1. cbn [bind]. now rewrite A2. }
    rewrite EA. cbn [bind]. rewrite (vset_mid L z (old ++ R) c (length L) eq_refl). cbn [bind].
    replace (L ++ c :: old ++ R) with ((L ++ [c]) ++ old ++ R) by now rewrite <- app_assoc.
    replace (L ++ c :: cs ++ R) with ((L ++ [c]) ++ cs ++ R) by now rewrite <- app_assoc.
    replace (i + S (length cs)) with (S i + length cs) by lia.
    apply (IH (S i) (length (L ++ [c]))); auto. rewrite app_length. cbn [length]. destruct ell; lia.
Qed.
Lemma upd_length {A} (l : list A) : forall i v l', upd l i v = Some l' -> length l' = length l.
Proof.
  induction l as [|x l IH]; intros [|i] v l' U; cbn in U; try discriminate; [injection U as <-; reflexivity|].
  destruct (upd l i v) eqn:U'; [|discriminate]. injection U as <-. cbn. now rewrite (IH _ _ _ U').
Qed.
Lemma vset_len {A} (l : list A) i v l' : vset l i v = Ok l' -> length l' = length l.
Proof. unfold vset. destruct (upd l i v) eqn:U; [|discriminate]. intros E. injection E as <-. now apply upd_length in U. Qed.
Lemma zero_range_len : forall n l i l', zero_range l i n = Ok l' -> length l' = length l.
Proof. induction n as [|n IH]; intros l i l' E; cbn [zero_range] in E; [congruence|]. apply bind_Ok_inv in E as (l1 & E1 & E). apply vset_len in E1. apply IH in E. congruence. Qed.
Lemma parse_out_len bd counts : forall cs i labels ell check l e, parse_out_go bd i cs labels counts ell check = Ok (l, e) -> length l = length labels.
Proof.
  induction cs as [|c cs IH]; intros i labels ell check l e E; cbn [parse_out_go] in E; [congruence|]. destruct check; [apply guard_inv in E as [_ E]; eauto|].
  destruct (is_alpha c).
  - apply guard_inv in E as [_ E]. apply guard_inv in E as [_ E]. apply bind_Ok_inv in E as (ax & _ & E). apply bind_Ok_inv in E as (l1 & E1 & E). apply vset_len in E1. apply IH in E. congruence.
  - destruct (c =? DOT)%Z; [|apply guard_inv in E as [_ E]; eauto]. apply guard_inv in E as [_ E]. apply bind_Ok_inv in E as (l1 & E1 & E). apply zero_range_len in E1. apply IH in E. congruence.
Qed.
Lemma not_ok_panic {A} (m : res A) : noob m -> (forall x, m <> Ok x) -> m = Panic.
Proof. intros N H. destruct m; [now destruct (H a)|reflexivity|now destruct N]. Qed.
Lemma parse_output_len cs bd counts l : parse_output cs bd counts = Ok l -> length l <= 32.
Proof.
  intros E. unfold parse_output in E. apply guard_inv in E as [_ E]. apply bind_Ok_inv in E as ([l1 e] & E1 & E). apply parse_out_len in E1. rewrite repeat_length in E1.
  apply bind_Ok_inv in E as (nd & _ & E). unfold vprefix in E. destruct (_ <? _); [discriminate|]. injection E as <-. rewrite firstn_length. change MAX_DIMS with 32 in E1. lia.
Qed.

Lemma out_plain cs bd counts : letters cs -> parse_output cs bd counts = if accept counts cs [] && (length cs <=? 32) then Ok cs else Panic.
Proof.
  intros LC. destruct (Nat.leb_spec (length cs) 32) as [L|G].
  - unfold parse_output. rewrite letters_ascii by exact LC. cbn [guard bind]. change MAX_DIMS with 32. rewrite (zeros_split (length cs) 32 L).
    rewrite <- (app_nil_r cs) at 1. rewrite <- (app_nil_l (repeat 0%Z (length cs) ++ _)).
    rewrite (out_run bd false counts [] cs 0 0 [] (repeat 0%Z (length cs))); auto; [|now rewrite repeat_length].
    destruct (accept counts cs []); [|reflexivity]. cbn [parse_out_go bind andb app]. unfold vprefix. rewrite app_length, (proj2 (Nat.ltb_ge _ _)) by lia.
    rewrite firstn_app, firstn_all, Nat.sub_diag, firstn_O, app_nil_r. reflexivity.
  - rewrite andb_false_r. apply not_ok_panic; [apply noob_parse_output|]. intros l E. unfold parse_output in E. apply guard_inv in E as [_ E]. apply bind_Ok_inv in E as ([l1 e] & E1 & E).
    pose proof (parse_out_len _ _ _ _ _ _ _ _ _ E1) as LL. rewrite repeat_length in LL. change MAX_DIMS with 32 in *.
    apply parse_out_ell in E1; [|now apply letters_no_dot]. subst e. cbn [bind] in E. unfold vprefix in E. rewrite (proj2 (Nat.ltb_lt _ _)) in E by lia. discriminate.
Qed.

Lemma letter_not_dot c : is_alpha c = true -> (c =? 46)%Z = false.
Proof. intros A. apply Z.eqb_neq. intros ->. discriminate. Qed.
Lemma accept_dots counts pre post : letters (pre ++ post) ->
  accept counts pre ([46; 46]%Z ++ post) && accept counts post [] = accept counts (pre ++ post) [].
Proof.
  intros LC. induction pre as [|c pre IH]; [now rewrite andb_true_l|]. cbn [app] in LC. inversion LC as [|? ? AC LC']; subst. cbn [app accept]. rewrite <- IH by exact LC'.
  rewrite !existsb_app. cbn [app existsb]. rewrite (letter_not_dot c AC). cbn [orb]. rewrite orb_false_r. now rewrite !andb_assoc.
Qed.

(** parsing of "pre..post" in the output *)
Lemma out_dots pre post bd counts : letters (pre ++ post) ->
  parse_output (pre ++ [46; 46]%Z ++ post) bd counts =
  if accept counts (pre ++ post) [] && (length pre + bd + length post <=? 32) then Ok (pre ++ repeat 0%Z bd ++ post) else Panic.
Proof.
  intros LC. assert (LB := LC). apply Forall_app in LB as [L1 L2]. set (p := length pre). set (q := length post).
  assert (ND : length (pre ++ [46; 46]%Z ++ post) = p + (2 + q)) by (rewrite !app_length; reflexivity).
  assert (AS : forallb is_ascii (pre ++ [46; 46]%Z ++ post) = true) by (rewrite !forallb_app, (letters_ascii pre L1), (letters_ascii post L2); reflexivity).
  destruct (Nat.leb_spec (p + bd + q) 32) as [L|G].
  - unfold parse_output. rewrite AS, ND. cbn [guard bind]. change MAX_DIMS with 32.
    rewrite (zeros_split p 32) by lia. rewrite <- (app_nil_l (repeat 0%Z p ++ _)).
    rewrite (out_run bd false counts ([46; 46]%Z ++ post) pre 0 0 [] (repeat 0%Z p)); auto; [|now rewrite repeat_length]. rewrite <- accept_dots by exact LC.
    destruct (accept counts pre ([46; 46]%Z ++ post)); [|reflexivity]. cbn [app andb]. rewrite Nat.add_0_l. fold p.
    cbn [parse_out_go]. change (is_alpha 46) with false. change (46 =? DOT)%Z with true. cbn [negb guard bind].
    rewrite (zeros_split bd (32 - p)) by lia. rewrite (zero_range_zeros bd pre p) by reflexivity. cbn [bind parse_out_go guard].
    rewrite (zeros_split q (32 - p - bd)) by lia.
    replace (pre ++ repeat 0%Z bd ++ repeat 0%Z q ++ repeat 0%Z (32 - p - bd - q)) with ((pre ++ repeat 0%Z bd) ++ repeat 0%Z q ++ repeat 0%Z (32 - p - bd - q)) by now rewrite <- app_assoc.
    rewrite <- (app_nil_r post) at 1.
    rewrite (out_run bd true counts [] post (S (S p)) (p + bd) (pre ++ repeat 0%Z bd) (repeat 0%Z q)); auto; [|split; lia|rewrite app_length, repeat_length; reflexivity|now rewrite repeat_length].
    destruct (accept counts post []); [|reflexivity]. cbn [parse_out_go bind]. unfold csub. rewrite (proj2 (Nat.ltb_ge _ _)) by lia. cbn [bind]. unfold vprefix.
    rewrite !app_length, !repeat_length. fold p q. rewrite (proj2 (Nat.ltb_ge _ _)) by lia. f_equal.
    rewrite (app_assoc _ post). replace (p + (2 + q) - 2 + bd) with (length ((pre ++ repeat 0%Z bd) ++ post)) by (rewrite !app_length, repeat_length; fold p q; lia).
    rewrite firstn_app, firstn_all, Nat.sub_diag, firstn_O, app_nil_r. now rewrite <- app_assoc.
  - rewrite andb_false_r. apply not_ok_panic; [apply noob_parse_output|]. intros l E. unfold parse_output in E. apply guard_inv in E as [_ E]. apply bind_Ok_inv in E as ([l1 e] & E1 & E).
    pose proof (parse_out_len _ _ _ _ _ _ _ _ _ E1) as LL. rewrite repeat_length in LL. change MAX_DIMS with 32 in *.
    assert (e = true) as ->. 
    { assert (MONO : forall cs i labels ell check l e, parse_out_go bd i cs labels counts ell check = Ok (l, e) -> (ell = true \/ In DOT cs /\ check = false) -> e = true).
      { clear. induction cs as [|c cs IH]; intros i labels ell check l e E H; cbn [parse_out_go] in E; [destruct H as [H|[[] _]]; congruence|].
        destruct check; [apply guard_inv in E as [_ E]; apply (IH _ _ _ _ _ _ E); left; destruct H as [H|[_ H]]; [exact H|discriminate]|].
        destruct (is_alpha c) eqn:A.
        - apply guard_inv in E as [_ E]. apply guard_inv in E as [_ E]. apply bind_Ok_inv in E as (ax & _ & E). apply bind_Ok_inv in E as (l2 & _ & E). apply (IH _ _ _ _ _ _ E).
          destruct H as [H|[[ ->|H] _]]; [now left|discriminate|now right].
        - destruct (Z.eqb_spec c DOT) as [->|N].
          + apply guard_inv in E as [_ E]. apply bind_Ok_inv in E as (l2 & _ & E). apply (IH _ _ _ _ _ _ E). now left.
          + apply guard_inv in E as [_ E]. apply (IH _ _ _ _ _ _ E). destruct H as [H|[[ ->|H] _]]; [now left|now destruct N|now right]. }
      apply (MONO _ _ _ _ _ _ _ E1). right. split; [|reflexivity]. apply in_or_app. right. now left. }
    rewrite ND in E. unfold csub in E. rewrite (proj2 (Nat.ltb_ge _ _)) in E by lia. cbn [bind] in E. unfold vprefix in E. rewrite (proj2 (Nat.ltb_lt _ _)) in E by lia. discriminate.
Qed.

Lemma einsum_same_out T (zero one : T) add mul fma (h : heap T) ops subs out out' :
  (forall ls c d m, parse_all subs ops (fun _ => 0) (fun _ => 0) 0 = Ok (ls, c, d, m) -> parse_output out m c = parse_output out' m c) ->
  nd_einsum zero one add mul fma h ops subs out = nd_einsum zero one add mul fma h ops subs out'.
Proof.
  intros H. unfold nd_einsum. replace (prepare_einsum ops subs out) with (prepare_einsum ops subs out'); [reflexivity|]. unfold prepare_einsum.
  destruct (guard (length ops <? MAX_ARGS)); [|reflexivity|reflexivity]. cbn [bind]. destruct (parse_all subs ops _ _ 0) as [[[[ls c] d] m]| |] eqn:E; [|reflexivity|reflexivity].
  cbn [bind]. cbv zeta. now rewrite (H ls c d m eq_refl).
Qed.

(** Without an ellipsis in the operands ".." in the output is ignored, and a single dot at the
    end removes the last letter: its axis is summed over. *)
Theorem C74_output_dots_ignored : forall T (zero one : T) add mul fma (h : heap T) ops subs pre post,
  Forall (fun s => ~ In 46%Z s) subs -> Forall letter (pre ++ post) ->
  nd_einsum zero one add mul fma h ops subs (pre ++ [46; 46]%Z ++ post) = nd_einsum zero one add mul fma h ops subs (pre ++ post).
Proof.
  intros T zero one add mul fma h ops subs pre post F LT. apply letter_letters in LT. apply einsum_same_out. intros ls c d m E.
  apply parse_all_inv in E as (l' & c' & d' & E & _); [|exact F]. injection E as -> -> -> ->.
  rewrite (out_dots pre post 0 c' LT), (out_plain (pre ++ post) 0 c' LT). cbn [repeat app]. rewrite app_length, Nat.add_0_r. reflexivity.
Qed.
Print Assumptions C74_output_dots_ignored.
Theorem C74_output_dot_drops : forall T (zero one : T) add mul fma (h : heap T) ops subs pre c k s a,
  Forall (fun s => ~ In 46%Z s) subs -> Forall letter (pre ++ [c]) -> ~ In c pre -> length pre < 32 ->
  nth_error subs k = Some s -> nth_error ops k = Some a -> In c s ->
  nd_einsum zero one add mul fma h ops subs (pre ++ [c; 46%Z]) = nd_einsum zero one add mul fma h ops subs pre.
Proof.
  intros T zero one add mul fma h ops subs pre c k s a F LT NI L K1 K2 I. apply letter_letters in LT. apply einsum_same_out. intros ls cn d m E.
  apply parse_all_inv in E as (l' & c' & d' & E & _ & _ & _ & HN); [|exact F]. injection E as -> -> -> ->.
  destruct (HN k s a K1 K2) as [_ HC]. apply In_nth_error in I as [j J]. assert (LB := LT). apply Forall_app in LB as [L1 L2]. inversion L2 as [|? ? AC _]; subst.
  destruct (HC j c J AC) as [CP _].
  rewrite (out_plain pre 0 c' L1). rewrite (proj2 (Nat.leb_le _ _)) by lia. rewrite andb_true_r.
  unfold parse_output. replace (forallb is_ascii (pre ++ [c; 46%Z])) with true.
  2: { rewrite forallb_app, (letters_ascii pre L1). cbn [forallb andb]. now rewrite (is_alpha_ascii c AC). }
  cbn [guard bind]. change MAX_DIMS with 32. replace (pre ++ [c; 46%Z]) with ((pre ++ [c]) ++ [46%Z]) by now rewrite <- app_assoc.
  set (n := length (pre ++ [c])). assert (En : n = length pre + 1) by (unfold n; rewrite app_length; reflexivity).
  rewrite (zeros_split n 32) by lia. rewrite <- (app_nil_l (repeat 0%Z n ++ _)).
  rewrite (out_run 0 false c' [46%Z] (pre ++ [c]) 0 0 [] (repeat 0%Z n)); auto; [|now rewrite repeat_length].
  replace (accept c' (pre ++ [c]) [46%Z]) with (accept c' pre []).
  - destruct (accept c' pre []); [|reflexivity]. cbn [app]. cbn [parse_out_go]. change (is_alpha 46) with false. change (46 =? DOT)%Z with true. cbn [negb guard bind zero_range].
    rewrite app_length. fold n. cbn [length]. unfold csub. rewrite (proj2 (Nat.ltb_ge _ _)) by lia. cbn [bind]. unfold vprefix.
    rewrite !app_length, repeat_length. fold n. cbn [length]. rewrite (proj2 (Nat.ltb_ge _ _)) by lia. f_equal.
    replace (n + 1 - 2 + 0) with (length pre) by lia. rewrite <- app_assoc. rewrite firstn_app, firstn_all, Nat.sub_diag, firstn_O, app_nil_r. reflexivity.
  - clear - AC CP NI L1. induction pre as [|x pre IH]; cbn [app accept existsb].
    + rewrite (letter_not_dot c AC). cbn [orb negb andb]. rewrite (proj2 (Nat.eqb_neq _ _)) by lia. reflexivity.
    + inversion L1 as [|? ? AX L1']; subst. rewrite IH by (auto; intros J; apply NI; now right). rewrite !existsb_app. cbn [existsb].
      assert (NE : (x =? c)%Z = false) by (apply Z.eqb_neq; intros ->; apply NI; now left). rewrite NE, (letter_not_dot x AX). cbn [orb]. now rewrite !orb_false_r.
Qed.
Print Assumptions C74_output_dot_drops.

(** With an ellipsis that stands for at least one axis in some operand, ".." in the output panics. *)
Lemma parse_all_mbd : forall subs ops c d m ls c' d' m', parse_all subs ops c d m = Ok (ls, c', d', m') ->
  m <= m' /\ length ls <= length ops /\ forall k s a, nth_error subs k = Some s -> nth_error ops k = Some a -> length (a_shape a) - length (filter is_alnum s) <= m'.
Proof.
  induction subs as [|s0 subs IH]; intros ops c d m ls c' d' m' E; cbn [parse_all] in E.
  - injection E as <- _ _ <-. split; [lia|]. split; [cbn; lia|]. intros [|k]; discriminate.
  - destruct ops as [|a0 ops]; [injection E as <- _ _ <-; split; [lia|]; split; [cbn; lia|]; intros [|k]; discriminate|].
    apply bind_Ok_inv in E as ([[[l c1] d1] b] & E1 & E). apply bind_Ok_inv in E as ([[[ls2 c2] d2] m2] & E2 & E). injection E as <- _ _ <-.
    apply IH in E2 as (M & LL & H). split; [lia|]. split; [cbn; lia|]. intros [|k] s a K1 K2; [|eapply H; eauto]. injection K1 as ->. injection K2 as ->.
    unfold parse_operand in E1. apply guard_inv in E1 as [_ E1]. destruct (_ <? _); [discriminate|]. apply bind_Ok_inv in E1 as ([[[[? ?] ?] ?] ?] & _ & E1).
    apply guard_inv in E1 as [_ E1]. apply guard_inv in E1 as [_ E1]. injection E1 as _ _ _ <-. lia.
Qed.
Lemma mapM_ok_in {A B} (f : A -> res B) : forall l r, mapM f l = Ok r -> forall x, In x l -> exists y, f x = Ok y.
Proof.
  induction l as [|z l IH]; intros r E x I; [destruct I|]. cbn [mapM] in E. apply bind_Ok_inv in E as (y & E1 & E). apply bind_Ok_inv in E as (ys & E2 & _).
  destruct I as [<-|I]; eauto.
Qed.
Theorem C74_output_ellipsis_panics : forall T (zero one : T) add mul fma (h : heap T) ops subs pre post k ipre ipost a,
  Forall letter (pre ++ post) -> Forall letter (ipre ++ ipost) -> nth_error subs k = Some (ipre ++ [46; 46]%Z ++ ipost) -> nth_error ops k = Some a ->
  length ipre + length ipost < length (a_shape a) ->
  nd_einsum zero one add mul fma h ops subs (pre ++ [46; 46]%Z ++ post) = Panic.
Proof.
  intros T zero one add mul fma h ops subs pre post k ipre ipost a LT LI K1 K2 LS. set (s := ipre ++ [46; 46]%Z ++ ipost) in *.
  apply letter_letters in LI. apply Forall_app in LI as [LI1 LI2].
  assert (EF : length (filter is_alnum s) = length ipre + length ipost) by (unfold s; rewrite !filter_app, !app_length, (letters_filter ipre LI1), (letters_filter ipost LI2); reflexivity).
  rewrite <- EF in LS. clear EF. apply letter_letters in LT. apply einsum_panics. intros r E. unfold prepare_einsum in E.
  apply guard_inv in E as [_ E]. apply bind_Ok_inv in E as ([[[ls c] d] m] & E1 & E). apply parse_all_mbd in E1 as (_ & LL & HM). specialize (HM k s a K1 K2).
  cbv zeta in E. apply bind_Ok_inv in E as (outl & EO & E). rewrite (out_dots pre post m c LT) in EO. destruct (accept _ _ _ && _); [|discriminate]. injection EO as <-.
  apply bind_Ok_inv in E as (u & _ & E). apply bind_Ok_inv in E as (extra & _ & E). apply bind_Ok_inv in E as (tmp & ES & _).
  destruct ops as [|a0 ops]; [destruct k; discriminate|].
  assert (IZ : In 0%Z ((pre ++ repeat 0%Z m ++ post) ++ extra)).
  { apply in_or_app. left. apply in_or_app. right. apply in_or_app. left. destruct m as [|m]; [lia|]. now left. }
  assert (exists l0 lr, ls ++ repeat (repeat 0%Z MAX_DIMS) (length (a0 :: ops) - length ls) = l0 :: lr) as (l0 & lr & EL).
  { destruct ls as [|l0 ls]; [|eexists _, _; reflexivity]. cbn [length Nat.sub repeat app]. eexists _, _. reflexivity. }
  rewrite EL in ES. cbn [all_strides] in ES. apply bind_Ok_inv in ES as ([l1 st] & _ & ES). apply bind_Ok_inv in ES as (s1 & ES & _).
  unfold operand_strides in ES. destruct (mapM_ok_in _ _ _ ES _ IZ) as (y & Y). discriminate.
Qed.
Print Assumptions C74_output_ellipsis_panics.

(** ** one operand with an ellipsis *)
Theorem C74_single : forall T (zero one : T) add mul fma (h : heap T) a pre post out,
  Forall letter (pre ++ post) -> NoDup (pre ++ post) -> length (a_stride a) = length (a_shape a) -> length (a_shape a) <= 32 ->
  length pre + length post <= length (a_shape a) -> (post <> [] -> length pre + length post + 2 <= length (a_shape a)) -> Forall letter out ->
  (length pre + length post = length (a_shape a) \/ (exists c, In c pre /\ ~ In c out) ->
     nd_einsum zero one add mul fma h [a] [pre ++ [46; 46]%Z ++ post] out =
     nd_einsum zero one add mul fma h [seen (length pre) (length post) a] [pre ++ post] out) /\
  (length pre + length post < length (a_shape a) -> incl pre out ->
     nd_einsum zero one add mul fma h [a] [pre ++ [46; 46]%Z ++ post] out = Panic).
Proof.
  intros T zero one add mul fma h a pre post out LT ND W MD FIT FIT2 LO. apply letter_letters in LT. apply letter_letters in LO.
  set (a' := seen (length pre) (length post) a).
  assert (LPRE : forall j c, nth_error pre j = Some c -> (vget (elabels pre post a) j = Ok c /\ c <> 0%Z) /\ (vget (plabels pre post) j = Ok c /\ c <> 0%Z)).
  { intros j c J. assert (LJ : j < length pre) by (apply nth_error_Some; congruence).
    assert (c <> 0%Z). { apply Forall_app in LT as [L1 _]. apply nth_error_In in J. apply (proj1 (Forall_forall _ _) L1) in J. apply is_alpha_pos in J. lia. }
    unfold elabels, plabels. split; (split; [apply vget_error; now rewrite nth_error_app1 by exact LJ|assumption]). }
  split.
  - intros H. assert (E : prepare_einsum [a] [pre ++ [46; 46]%Z ++ post] out = prepare_einsum [a'] [pre ++ post] out).
    { unfold prepare_einsum. cbn [length]. destruct (guard (1 <? MAX_ARGS)); [|reflexivity|reflexivity]. cbn [bind parse_all].
      rewrite (parse_ellipsis pre post a LT ND W MD FIT FIT2). unfold a' at 1. cbn [a_shape seen].
      rewrite (parse_plain pre post a LT ND W MD FIT FIT2).
      destruct (record _ _ _ _) as [[c1 d1]|]; [|reflexivity]. cbn [bind length Nat.sub app repeat]. cbv zeta. cbn [Nat.max].
      rewrite (out_plain out _ c1 LO), (out_plain out _ c1 LO). destruct (accept c1 out [] && _); [|reflexivity]. cbn [bind].
      assert (RS : exists o o', reshape_for_einsum a (elabels pre post a) out = Ok o /\ reshape_for_einsum a' (plabels pre post) out = Ok o' \/
                     reshape_for_einsum a (elabels pre post a) out = reshape_for_einsum a' (plabels pre post) out).
      { destruct H as [EQ|(c & I & N)].
        - exists None, None. right. assert (post = []) as EP by (destruct post; [reflexivity|]; assert (H : z :: post <> []) by discriminate; specialize (FIT2 H); lia).
          assert (EA : a' = a).
          { unfold a', seen. rewrite EP in *. cbn [length firstn] in *. rewrite Nat.add_0_r in EQ. rewrite Nat.sub_0_r, <- W, skipn_all, !app_nil_r. rewrite EQ at 1. rewrite firstn_all. rewrite EQ, <- W, firstn_all. now destruct a. }
          rewrite EA. f_equal. unfold elabels, plabels. rewrite EP in *. cbn [length app] in *. rewrite <- EQ, Nat.sub_diag. cbn [repeat app]. now rewrite Nat.add_0_r.
        - exists None, None. left. unfold reshape_for_einsum. split.
          + replace (length (a_shape a)) with (length pre + (length (a_shape a) - length pre)) by lia.
            apply rse_prefix; try (rewrite repeat_length; reflexivity); try lia; [|now exists c].
            intros j x J. rewrite label_nonneg by now apply elabels_nonneg. now apply LPRE.
          + destruct (ns_lengths pre post a LT ND W MD FIT FIT2) as [N1 N2].
            assert (LA : length (a_shape a') = length pre + length post) by (unfold a'; cbn [a_shape seen]; rewrite app_length; lia).
            assert (LS : length (a_stride a') = length pre + length post) by (unfold a'; cbn [a_stride seen]; rewrite app_length, firstn_length, skipn_length; lia).
            rewrite LA. apply rse_prefix; try (rewrite repeat_length; reflexivity); try lia; [|now exists c].
            intros j x J. rewrite label_nonneg by now apply plabels_nonneg. now apply LPRE. }
      assert (ES : forall iter, all_strides [a] [elabels pre post a] iter = all_strides [a'] [plabels pre post] iter).
      { intros iter. cbn [all_strides]. pose proof (same_strides pre post a LT W MD FIT iter) as SS. fold a' in SS.
        destruct (reshape_operand a (elabels pre post a)) as [[l1 st1]| |]; destruct (reshape_operand a' (plabels pre post)) as [[l2 st2]| |]; cbn [bind] in *; try discriminate; try (rewrite SS || rewrite <- SS); reflexivity. }
      destruct RS as (o & o' & [[-> ->]| ->]); cbn [bind]; [|destruct (reshape_for_einsum a' (plabels pre post) out); [|reflexivity|reflexivity]; cbn [bind]];
        (destruct (extra_labels _ _ _ _) as [extra| |]; [|reflexivity|reflexivity]; cbn [bind]; now rewrite ES). }
    unfold nd_einsum. now rewrite E.
  - intros LT2 IN. apply einsum_panics. intros r E. unfold prepare_einsum in E. apply guard_inv in E as [_ E]. cbn [parse_all] in E.
    rewrite (parse_ellipsis pre post a LT ND W MD FIT FIT2) in E. destruct (record _ _ _ _) as [[c1 d1]|]; [|discriminate]. cbn [bind length Nat.sub app repeat] in E. cbv zeta in E.
    apply bind_Ok_inv in E as (outl & EO & E). rewrite (out_plain out _ c1 LO) in EO. destruct (accept c1 out [] && _); [|discriminate]. injection EO as <-.
    apply bind_Ok_inv in E as (u & E & _). apply bind_Ok_inv in E as (o & E & _). unfold reshape_for_einsum in E.
    replace (length (a_shape a)) with (length pre + (length (a_shape a) - length pre)) in E by lia.
    destruct (rse_prefix (elabels pre post a) out (a_shape a) (a_stride a) pre 0 (length (a_shape a) - length pre) (repeat 0 (length out)) (repeat 0 (length out))) as [_ R];
      try (rewrite repeat_length; reflexivity); try lia; [intros j x J; rewrite label_nonneg by (now apply elabels_nonneg); now apply LPRE|].
    destruct (R IN) as (n1 & n2 & _ & _ & ER). rewrite ER in E. cbn [plus] in E.
    destruct (length (a_shape a) - length pre) as [|n] eqn:EN; [lia|]. cbn [rse_go] in E. rewrite label_nonneg in E by now apply elabels_nonneg.
    assert (EV : vget (elabels pre post a) (length pre) = Ok 0%Z).
    { unfold elabels. destruct (length (a_shape a) - (length pre + length post)) as [|b] eqn:EB; [lia|]. cbn [repeat app]. now apply vget_mid. }
    rewrite EV in E. discriminate.
Qed.
Print Assumptions C74_single.

(** ** Examples.  105 is 'i', 106 is 'j', 46 is '.' *)
Definition exe : arr := fresh_arr 0 16 [2; 2; 2; 2].
Definition exeh : heap nat := [Some (seq 1 16)].
Notation ein := (nd_einsum 0 1 (okadd Nat.add) (okadd Nat.mul) (okfma Nat.add Nat.mul)).

(** "i..j", "j..i" -> "i" *)
Example C74_ex : let s := [[105; 46; 46; 106]; [106; 46; 46; 105]]%Z in
  reads_all s [exe; exe] [[105; 106]; [106; 105]]%Z [seen 1 1 exe; seen 1 1 exe] /\
  (exists h' r, ein exeh [exe; exe] s [105%Z] = Ok (h', r) /\ elems h' r = Ok [19; 118]) /\
  get exeh (seen 1 1 exe) [1; 0] = get exeh exe [1; 0; 0; 0].
Proof.
  cbn zeta.
  assert (R : forall x y, letter x -> letter y -> x <> y -> reads [x; 46; 46; y]%Z exe [x; y] (seen 1 1 exe)).
  { intros x y X Y N. apply (reads_ellipsis [x] [y] exe); cbn; try lia; [constructor; [exact X|constructor; [exact Y|constructor]]|]. constructor; [|constructor; [intros []|constructor]]. intros [E|[]]. now apply N. }
  split; [|split; [eexists _, _; split; vm_compute; reflexivity|reflexivity]].
  repeat (apply reads_one; [apply R; [unfold letter; lia|unfold letter; lia|lia]|]). apply reads_no_more_subs.
Qed.
(** one operand: "i..j" -> "j" sums over i at index 0 of the axes in between, "i..j" -> "i" panics *)
Example C74_single_ex : (exists h' r, ein exeh [exe] [[105; 46; 46; 106]]%Z [106%Z] = Ok (h', r) /\ elems h' r = Ok [10; 12]) /\
  ein exeh [exe] [[105; 46; 46; 106]]%Z [105%Z] = Panic.
Proof. split; [eexists _, _; split; vm_compute; reflexivity|vm_compute; reflexivity]. Qed.
(** "ij" -> "ij." gives the sums of the rows; "ij" -> "i..j" the matrix *)
Example C74_output_ex : let h := [Some (seq 1 6)] in let a := fresh_arr 0 6 [2; 3] in
  (exists h' r, ein h [a] [[105; 106]]%Z [105; 106; 46]%Z = Ok (h', r) /\ elems h' r = Ok [6; 15]) /\
  (exists h' r, ein h [a] [[105; 106]]%Z [105; 46; 46; 106]%Z = Ok (h', r) /\ elems h' r = Ok [1; 2; 3; 4; 5; 6]).
Proof. split; (eexists _, _; split; vm_compute; reflexivity). Qed.
(** "..ij" on a matrix, and ".." in the output with an ellipsis over two axes *)
Example C74_panics_ex : ein exh [ex23; ex23] [[46; 46; 105; 106]; [105; 106]]%Z [105%Z] = Panic /\
  ein exeh [exe; exe] [[105; 46; 46; 106]; [106; 46; 46; 105]]%Z [105; 46; 46]%Z = Panic.
Proof. split; vm_compute; reflexivity. Qed.

(** When the ellipsis stands for more than two axes or the wrong lengths agree, cells outside
    the block are read: "..i", "..i" -> "i" on a transposed array of shape [1; 1; 5; 2]. *)
Theorem C74_outside_memory : exists (h : heap nat) n a, live h 0 n /\ chain 0 n false a /\ a_shape a = [1; 1; 5; 2] /\
  ein h [a; a] [[46; 46; 105]; [46; 46; 105]]%Z [105%Z] = Oob.
Proof.
  exists [Some (seq 1 10)], 10. eexists. split; [exists (seq 1 10); split; reflexivity|].
  split; [eapply Ch_transpose with (m := ByRef) (i := 2%Z) (j := 3%Z); [exact (Ch_new 0 10 [1; 1; 2; 5] eq_refl ltac:(lia))|vm_compute; reflexivity]|].
  split; vm_compute; reflexivity.
Qed.
Print Assumptions C74_outside_memory.
