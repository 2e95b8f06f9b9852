(** PropsEinsumView.v: einsum_view (C54) and spaces in subscripts (C55). *)
From Coq Require Import List Arith Lia Bool ZArith.
From Verif Require Import Base Spec Layout SpecFacts LayoutFacts Views ViewsFacts ViewsFacts2 Kernels Access HeapFacts Reduce Einsum
  EinsumParse Chain ChainFacts EinsumFacts8 PropsOps PropsEinsum.
Import ListNotations.
Open Scope res_scope.

(** ** C54.  Axis k of the operand has label sub[k]; dm l is the range of label l.  The element
    of the view at idx is the element of the operand whose axis labelled l has index
    idx[position of l in out]; a repeated label selects a diagonal. *)
Theorem C54_view : forall T (h : heap T) a sub out dm, Forall letter sub -> Forall letter out -> NoDup out ->
  (forall l, In l out -> In l sub) -> a_shape a = map dm sub -> length (a_stride a) = length (a_shape a) -> length sub <= 32 ->
  ((forall l, In l sub -> In l out) -> exists r, einsum_view a sub out = Ok (Some r) /\ a_shape r = map dm out /\
     views r a (fun idx => map (lookup out idx) sub) /\ f_write (a_fl r) = f_write (a_fl a) /\
     forall idx, in_range idx (map dm out) -> get h r idx = get h a (map (lookup out idx) sub)) /\
  ((exists l, In l sub /\ ~ In l out) -> einsum_view a sub out = Ok None).
Proof.
  intros T h a sub out dm LS LO ND IO SH W LM. apply letter_letters in LS, LO. rewrite SH, map_length in W.
  destruct (einsum_view_ok dm a sub out LS LO ND IO SH W LM) as [(c & I & N & E)|(I & E)]; rewrite E; split.
  - intros H. exfalso. auto.
  - reflexivity.
  - intros _. pose proof (einsum_view_views dm a sub out ND I SH W) as V.
    set (r := reshaped_view ByRef a (map dm out) (map (lsum sub (a_stride a)) out)) in *. exists r.
    split; [reflexivity|]. split; [reflexivity|]. split; [exact V|]. split; [apply reshaped_write|]. intros idx R.
    destruct V as (V1 & _ & V3). destruct (V3 idx R) as [_ Q]. unfold get. now rewrite V1, Q.
  - intros (l & I1 & I2). exfalso. auto.
Qed.
Print Assumptions C54_view.

(** Letters that do not describe a view are rejected with a panic: a number of labels other
    than the number of axes, one label on axes of different lengths, an output label that is
    repeated or not an operand label. *)
Lemma view_noob a sub out : einsum_view a sub out <> Oob.
Proof.
  change (noob (einsum_view a sub out)). unfold einsum_view. apply noob_bind; [apply noob_parse_operand|intros [[[l c] d] bd]].
  apply noob_bind; [apply noob_parse_output|intros o]. apply noob_bind; [apply noob_rse_go|intros [[? ?]|]]; apply noob_Ok.
Qed.
Theorem C54_ill_formed_panics : forall a sub out, Forall letter sub -> Forall letter out ->
  length (a_shape a) <> length sub \/ 32 < length sub \/ ~ NoDup out \/ (exists l, In l out /\ ~ In l sub) \/
  (exists i j l, nth_error sub i = Some l /\ nth_error sub j = Some l /\ nth_error (a_shape a) i <> nth_error (a_shape a) j) ->
  einsum_view a sub out = Panic.
Proof.
  intros a sub out LS LO H. apply letter_letters in LS, LO.
  destruct (einsum_view a sub out) as [o| |] eqn:E; [exfalso|reflexivity|now apply view_noob in E].
  destruct (einsum_view_inv a sub out o LS LO E) as (LM & ND & IO & dm & SH). unfold MAX_DIMS in LM.
  destruct H as [H|[H|[H|[(l & H1 & H2)|(i & j & l & H1 & H2 & H3)]]]]; auto.
  - now rewrite SH, map_length in H.
  - lia.
  - apply H3. now rewrite SH, !nth_error_map, H1, H2.
Qed.
Print Assumptions C54_ill_formed_panics.

(** einsum copies what einsum_view shows *)
Theorem C54_agrees_with_einsum : forall T (zero one : T) add mul, is_csr zero one add mul ->
  forall (h : heap T) b n bc a sub out v, live h b n -> chain b n bc a -> 0 < prod (a_shape a) ->
  Forall letter sub -> Forall letter out -> sub <> [] -> einsum_view a sub out = Ok (Some v) ->
  exists h' r, nd_einsum zero one (okadd add) (okadd mul) (okfma add mul) h [a] [sub] out = Ok (h', r) /\
    fresh_result h h' r (a_shape v) (get h v).
Proof.
  intros T zero one add mul CSR h b n bc a sub out v L C P LS LO NE E.
  pose proof (chain_valid h b n bc a L C) as [W V]. pose proof (letter_letters _ LS) as LS'. pose proof (letter_letters _ LO) as LO'.
  destruct (einsum_view_inv a sub out _ LS' LO' E) as (LM & ND & IO & dm & SH).
  destruct (C54_view T h a sub out dm LS LO ND IO SH W LM) as [H1 H2].
  assert (IS : forall l, In l sub -> In l out).
  { intros l I. destruct (in_dec Z.eq_dec l out) as [J|J]; [exact J|]. rewrite H2 in E by eauto. discriminate. }
  destruct (H1 IS) as (r0 & E' & S0 & _ & _ & G). rewrite E in E'. assert (v = r0) as <- by congruence. clear E' H1 H2.
  pose (va := fun idx => match get h a idx with Ok x => x | _ => zero end).
  assert (HV : holds h a va). { split; [exact W|]. intros idx R. unfold va. destruct (V idx R) as (x & ->). reflexivity. }
  destruct (C27_einsum_partial T zero one add mul CSR h [a] [sub] [va] out [] dm) as (h' & r & ER & F).
  - auto.
  - exact LO.
  - now rewrite app_nil_r.
  - intros l. rewrite app_nil_r. split; [intros I; exists sub; split; [now left|auto]|intros (s & [<-|[]] & I); auto].
  - rewrite app_nil_r. intros ->. destruct sub as [|l sub]; [congruence|]. apply (IS l). now left.
  - rewrite app_nil_r. pose proof (NoDup_incl_length ND IO). unfold MAX_DIMS in LM. lia.
  - cbn; lia.
  - constructor; [|constructor]. split; [exact SH|exact LM].
  - constructor; [exact HV|constructor].
  - intros l I. rewrite app_nil_r in I. apply pos_prod in P. rewrite SH in P. apply (proj1 (Forall_forall _ _) P). apply in_map. auto.
  - exists h', r. split; [exact ER|]. rewrite S0. eapply fresh_result_ext; [|exact F]. intros idx R. rewrite (G idx R).
    unfold einsum_value. cbn [map indices bigsum fold_right combine fst snd]. rewrite !app_nil_r.
    destruct HV as [_ HV]. rewrite HV; [|rewrite SH; now apply in_range_lookup]. f_equal.
    destruct CSR. congruence.
Qed.
Print Assumptions C54_agrees_with_einsum.

(** write access through the view: "ii" with output "i" on a 2 x 2 array is its diagonal,
    "ij" with output "ji" its transpose; "ij" with output "i" is not a view *)
Example C54_ex : let a := fresh_arr 0 6 [2; 3] in let d := fresh_arr 0 4 [2; 2] in let h := [Some [1; 2; 3; 4; 5; 6]] in
  (exists r, einsum_view a [105; 106]%Z [106; 105]%Z = Ok (Some r) /\ a_shape r = [3; 2] /\ elems h r = Ok [1; 4; 2; 5; 3; 6]) /\
  (exists r, einsum_view d [105; 105]%Z [105]%Z = Ok (Some r) /\ a_shape r = [2] /\ elems h r = Ok [1; 4] /\ chain 0 4 false r /\
     bind (nd_fill h r 9) (fun h' => elems h' d) = Ok [9; 2; 3; 9]) /\
  einsum_view a [105; 106]%Z [105]%Z = Ok None /\ einsum_view a [105; 105]%Z [105]%Z = Panic.
Proof.
  cbv zeta. assert (L : forall l, l = 105%Z \/ l = 106%Z -> letter l) by (unfold letter; intros l [-> | ->]; lia).
  split; [eexists; split; [reflexivity|]; split; vm_compute; reflexivity|]. split; [|split; reflexivity].
  eexists. split; [reflexivity|]. split; [reflexivity|]. split; [vm_compute; reflexivity|]. split; [|vm_compute; reflexivity].
  apply (Ch_einsum 0 4 false (fresh_arr 0 4 [2; 2]) [105; 105]%Z [105]%Z).
  - apply Ch_new; cbn; lia.
  - constructor; [auto|constructor; [auto|constructor]].
  - constructor; [auto|constructor].
  - reflexivity.
Qed.

(** ** C55 spaces.  32 is ' ' and 46 is '.'. *)
(** spaces at the end of an operand's subscripts are ignored *)
Lemma parse_go_app shape bd : forall cs i labels first counts dims ell check k,
  parse_go shape bd i (cs ++ repeat SPACE k) labels first counts dims ell check =
  (r <- parse_go shape bd i cs labels first counts dims ell check ;; if snd r && (0 <? k) then Panic else Ok r).
Proof.
  induction cs as [|c cs IH]; intros i labels first counts dims ell check k.
  - cbn [app]. revert i check. induction k as [|k IH]; intros i check; cbn [repeat parse_go bind snd]; [now rewrite andb_false_r|].
    destruct check; [reflexivity|]. change (is_alpha SPACE) with false. change ((SPACE =? DOT)%Z) with false. change ((SPACE =? SPACE)%Z) with true.
    cbn [guard bind]. rewrite IH. cbn [parse_go bind snd andb]. reflexivity.
  - cbn [app parse_go]. destruct check; [destruct (c =? DOT)%Z; cbn [guard bind]; [apply IH|reflexivity]|].
    destruct (is_alpha c).
    + destruct (if ell then _ else _) as [axis| |]; cbn [bind]; try reflexivity. destruct (axis <? length shape); cbn [guard bind]; [|reflexivity].
      destruct (vset labels axis _) as [l| |]; cbn [bind]; try reflexivity. destruct (vget shape i) as [n| |]; cbn [bind]; try reflexivity.
      destruct (_ =? 1); [apply IH|]. destruct (dims c =? n); cbn [guard bind]; [apply IH|reflexivity].
    + destruct (c =? DOT)%Z.
      * destruct ell; cbn [negb guard bind]; [reflexivity|]. destruct (zero_range labels i bd); cbn [bind]; try reflexivity. apply IH.
      * destruct (c =? SPACE)%Z; cbn [guard bind]; [apply IH|reflexivity].
Qed.
Lemma parse_operand_trailing cs k shape counts dims : parse_operand (cs ++ repeat SPACE k) shape counts dims = parse_operand cs shape counts dims.
Proof.
  unfold parse_operand. assert (F : filter is_alnum (cs ++ repeat SPACE k) = filter is_alnum cs).
  { rewrite filter_app. replace (filter is_alnum (repeat SPACE k)) with (@nil Z); [apply app_nil_r|]. induction k as [|k IH]; [reflexivity|]. exact IH. }
  assert (A : forallb is_ascii (cs ++ repeat SPACE k) = forallb is_ascii cs).
  { rewrite forallb_app. replace (forallb is_ascii (repeat SPACE k)) with true; [apply andb_true_r|]. clear F. induction k as [|k IH]; [reflexivity|]. exact IH. }
  rewrite F, A. destruct (forallb is_ascii cs); cbn [guard bind]; [|reflexivity]. destruct (_ <? _); [reflexivity|].
  rewrite parse_go_app. destruct (parse_go _ _ _ _ _ _ _ _ _ _) as [[[[[l c] d] e] ch]| |]; cbn [bind snd]; try reflexivity.
  destruct ch; cbn [andb negb guard bind]; [|reflexivity]. now destruct (0 <? k).
Qed.
Lemma parse_all_trailing : forall subs subs', Forall2 (fun s s' => exists k, s' = s ++ repeat SPACE k) subs subs' ->
  forall ops counts dims mbd, parse_all subs' ops counts dims mbd = parse_all subs ops counts dims mbd.
Proof.
  induction 1 as [|s s' subs subs' (k & ->) F IH]; intros ops counts dims mbd; [reflexivity|]. destruct ops as [|a ops]; [reflexivity|].
  cbn [parse_all]. rewrite parse_operand_trailing. destruct (parse_operand _ _ _ _) as [[[[l c] d] b]| |]; cbn [bind]; try reflexivity. now rewrite IH.
Qed.
Theorem C55_trailing_partial : forall T (zero one : T) add mul fma (h : heap T) ops subs subs' out,
  Forall2 (fun s s' => exists k, s' = s ++ repeat 32%Z k) subs subs' ->
  nd_einsum zero one add mul fma h ops subs' out = nd_einsum zero one add mul fma h ops subs out /\
  forall a s k, einsum_view a (s ++ repeat 32%Z k) out = einsum_view a s out.
Proof.
  intros T zero one add mul fma h ops subs subs' out F. split.
  - unfold nd_einsum, prepare_einsum. rewrite (parse_all_trailing subs subs' F). reflexivity.
  - intros a s k. unfold einsum_view. now rewrite parse_operand_trailing.
Qed.
Print Assumptions C55_trailing_partial.

(** a space before a letter of an operand's subscripts is a panic *)
Lemma letters_first cs n : (forall j c, nth_error cs j = Some c -> is_alpha c = true -> j < n) -> length (filter is_alpha cs) = n ->
  forall j c, j < n -> nth_error cs j = Some c -> is_alpha c = true.
Proof.
  intros B LN. assert (S : filter is_alpha (skipn n cs) = []).
  { destruct (filter is_alpha (skipn n cs)) as [|c l] eqn:E; [reflexivity|]. exfalso.
    assert (I : In c (filter is_alpha (skipn n cs))) by (rewrite E; now left). apply filter_In in I as [I A].
    apply In_nth_error in I as (k & K). assert (K' : nth_error cs (n + k) = Some c).
    { rewrite <- K. rewrite <- (firstn_skipn n cs) at 1. destruct (le_lt_dec n (length cs)) as [L|L].
      - rewrite nth_error_app2 by (rewrite firstn_length; lia). f_equal. rewrite firstn_length. lia.
      - rewrite skipn_all2 in K by lia. destruct k; discriminate. }
    apply B in K'; [lia|exact A]. }
  assert (LF : length (filter is_alpha (firstn n cs)) = n). { transitivity (length (filter is_alpha cs)); [|exact LN]. transitivity (length (filter is_alpha (firstn n cs ++ skipn n cs))); [now rewrite filter_app, S, app_nil_r|now rewrite firstn_skipn]. }
  assert (G : forall l m, length l <= m -> length (filter is_alpha l) = m -> forall c, In c l -> is_alpha c = true).
  { induction l as [|x l IH]; intros m L E c I; [destruct I|]. cbn [filter length] in *. destruct (is_alpha x) eqn:X.
    - cbn [length] in E. destruct I as [<-|I]; [exact X|]. apply (IH (m - 1)); auto; lia.
    - exfalso. assert (length (filter is_alpha l) <= length l) by (clear; induction l as [|y l IH]; cbn [filter length]; [lia|destruct (is_alpha y); cbn [length]; lia]). lia. }
  intros j c J E. apply (G (firstn n cs) n); [rewrite firstn_length; lia|exact LF|]. apply nth_error_In with j. rewrite <- E. rewrite <- (firstn_skipn n cs) at 2.
  rewrite nth_error_app1; [reflexivity|]. rewrite firstn_length. assert (j < length cs) by (apply nth_error_Some; congruence). lia.
Qed.
Lemma space_rejected s i j c shape counts dims : ~ In DOT s -> nth_error s i = Some SPACE -> nth_error s j = Some c -> is_alpha c = true -> i < j ->
  forall r, parse_operand s shape counts dims <> Ok r.
Proof.
  intros ND Ei Ej A L r E. apply parse_operand_inv in E as (l1 & c1 & d1 & -> & LA & _ & _ & _ & HN); [|exact ND].
  assert (B : forall j c, nth_error s j = Some c -> is_alpha c = true -> j < length shape).
  { intros j' c' E' A'. destruct (HN j' c' E' A') as [_ H]. apply nth_error_Some. congruence. }
  pose proof (B j c Ej A) as BJ. assert (X : is_alpha SPACE = true) by (apply (letters_first s (length shape) B LA i); [lia|exact Ei]). discriminate.
Qed.
Theorem C55_space_before_letter_panics : forall s i j c, ~ In 46%Z s -> nth_error s i = Some 32%Z -> nth_error s j = Some c -> letter c -> i < j ->
  (forall a out, einsum_view a s out = Panic) /\
  (forall T (zero one : T) add mul fma (h : heap T) ops subs out k a, Forall (fun s => ~ In 46%Z s) subs -> ~ In 46%Z out ->
     nth_error subs k = Some s -> nth_error ops k = Some a -> nd_einsum zero one add mul fma h ops subs out = Panic).
Proof.
  intros s i j c ND Ei Ej LC L. apply letter_alpha in LC. split.
  - intros a out. unfold einsum_view. destruct (parse_operand s (a_shape a) _ _) as [r| |] eqn:E; [|reflexivity|now apply noob_parse_operand in E].
    exfalso. exact (space_rejected s i j c _ _ _ ND Ei Ej LC L r E).
  - intros T zero one add mul fma h ops subs out k a FS NO Es Ea. unfold nd_einsum.
    destruct (prepare_einsum ops subs out) as [r| |] eqn:E; [|reflexivity|now apply prepare_no_oob in E]. exfalso.
    destruct (prepare_inv ops subs out r FS NO E) as (_ & (dm & H) & _). destruct (H k s a Es Ea) as [LA HN].
    assert (B : forall j c, nth_error s j = Some c -> is_alpha c = true -> j < length (a_shape a)).
    { intros j' c' E' A'. apply nth_error_Some. rewrite (HN j' c' E' A'). discriminate. }
    pose proof (B j c Ej LC) as BJ. assert (X : is_alpha SPACE = true) by (apply (letters_first s (length (a_shape a)) B LA i); [lia|exact Ei]). discriminate.
Qed.
Print Assumptions C55_space_before_letter_panics.

(** a space in the output subscripts: einsum panics, einsum_view returns an empty array *)
Lemma parse_out_go_space bd counts : forall cs pre labels r, ~ In DOT cs -> parse_out_go bd (length pre) cs (pre ++ labels) counts false false = Ok r ->
  Forall (fun x => x = 0%Z) labels -> exists rest, r = (pre ++ map (fun c => if is_alpha c then c else 0%Z) (firstn (length labels) cs) ++ rest, false) /\
    length (pre ++ map (fun c => if is_alpha c then c else 0%Z) (firstn (length labels) cs) ++ rest) = length (pre ++ labels).
Proof.
  induction cs as [|c cs IH]; intros pre labels r ND E Z0; cbn [parse_out_go] in E.
  - injection E as <-. exists labels. rewrite firstn_nil. split; reflexivity.
  - assert (ND' : ~ In DOT cs) by (intros I; apply ND; now right). assert (NC : c <> DOT) by (intros ->; apply ND; now left).
    destruct labels as [|x labels].
    + cbn [length firstn map app]. exists []. destruct (is_alpha c).
      * exfalso. apply guard_inv in E as [_ E]. apply guard_inv in E as [_ E]. cbn [bind] in E. apply bind_Ok_inv in E as (l & E & _).
        rewrite app_nil_r in E. unfold vset in E. replace (upd pre (length pre) c) with (@None (list Z)) in E; [discriminate|].
        clear. induction pre as [|x pre IH]; cbn; [reflexivity|]. now rewrite <- IH.
      * rewrite (proj2 (Z.eqb_neq _ _) NC) in E. apply guard_inv in E as [_ E]. rewrite !app_nil_r in *. split; [|reflexivity].
        assert (G : forall cs i, ~ In DOT cs -> length pre <= i -> forall r, parse_out_go bd i cs pre counts false false = Ok r -> r = (pre, false)).
        { clear. induction cs as [|c cs IH]; intros i ND L r E; cbn [parse_out_go] in E; [congruence|].
          assert (ND' : ~ In DOT cs) by (intros I; apply ND; now right). assert (NC : c <> DOT) by (intros ->; apply ND; now left).
          destruct (is_alpha c).
          - exfalso. apply guard_inv in E as [_ E]. apply guard_inv in E as [_ E]. cbn [bind] in E. apply bind_Ok_inv in E as (l & E & _).
            unfold vset in E. replace (upd pre i c) with (@None (list Z)) in E; [discriminate|].
            clear -L. revert i L. induction pre as [|x pre IH]; intros i L; cbn; [now destruct i|]. destruct i as [|i]; [cbn in L; lia|]. rewrite <- IH; [reflexivity|cbn in L; lia].
          - rewrite (proj2 (Z.eqb_neq _ _) NC) in E. apply guard_inv in E as [_ E]. apply (IH (S i)); auto. }
        apply (G cs (S (length pre))); auto.
    + apply Forall_cons_iff in Z0 as [-> Z0]. cbn [length firstn map].
      destruct (is_alpha c) eqn:A.
      * apply guard_inv in E as [_ E]. apply guard_inv in E as [_ E]. cbn [bind] in E. rewrite vset_mid in E by reflexivity. cbn [bind] in E.
        specialize (IH (pre ++ [c]) labels r ND'). rewrite <- !app_assoc in IH. cbn [app] in IH. replace (length (pre ++ [c])) with (S (length pre)) in IH by (rewrite app_length; cbn; lia).
        destruct (IH E Z0) as (rest & -> & LL). exists rest. rewrite <- app_assoc in LL |- *. split; [reflexivity|]. cbn [app] in LL |- *. rewrite LL. now rewrite !app_length.
      * rewrite (proj2 (Z.eqb_neq _ _) NC) in E. apply guard_inv in E as [_ E].
        specialize (IH (pre ++ [0%Z]) labels r ND'). rewrite <- !app_assoc in IH. cbn [app] in IH. replace (length (pre ++ [0%Z])) with (S (length pre)) in IH by (rewrite app_length; cbn; lia).
        destruct (IH E Z0) as (rest & -> & LL). exists rest. rewrite <- app_assoc in LL |- *. split; [reflexivity|]. cbn [app] in LL |- *. rewrite LL. now rewrite !app_length.
Qed.
Lemma parse_output_space out bd counts outl : ~ In DOT out -> parse_output out bd counts = Ok outl -> outl = map (fun c => if is_alpha c then c else 0%Z) out.
Proof.
  intros ND E. unfold parse_output in E. apply guard_inv in E as [_ E]. apply bind_Ok_inv in E as (r & E1 & E).
  destruct (parse_out_go_space bd counts out [] (repeat 0%Z MAX_DIMS) r ND E1) as (rest & -> & LL); [apply Forall_forall; intros x; apply repeat_spec|].
  cbn [bind app] in E. unfold vprefix in E. cbn [app] in LL. destruct (_ <? length out) eqn:L; [discriminate|]. apply Nat.ltb_ge in L.
  rewrite LL, repeat_length in L.
  assert (FA : firstn (length (repeat 0%Z MAX_DIMS)) out = out) by (apply firstn_all2; rewrite repeat_length; exact L). rewrite FA in E. clear FA LL E1.
  assert (EQ : outl = firstn (length out) (map (fun c => if is_alpha c then c else 0%Z) out ++ rest)) by congruence. rewrite EQ.
  rewrite firstn_app, map_length, Nat.sub_diag, firstn_O, app_nil_r. apply firstn_all2. now rewrite map_length.
Qed.
Lemma In_zero out : In SPACE out -> In 0%Z (map (fun c => if is_alpha c then c else 0%Z) out).
Proof. intros I. apply in_map_iff. exists SPACE. now split. Qed.

Theorem C55_output_space_panics : forall T (zero one : T) add mul fma (h : heap T) ops subs out, ops <> [] -> ~ In 46%Z out -> In 32%Z out ->
  nd_einsum zero one add mul fma h ops subs out = Panic.
Proof.
  intros T zero one add mul fma h ops subs out NE ND IS. unfold nd_einsum.
  destruct (prepare_einsum ops subs out) as [r| |] eqn:E; [|reflexivity|now apply prepare_no_oob in E]. exfalso.
  unfold prepare_einsum in E. apply guard_inv in E as [_ E]. apply bind_Ok_inv in E as ([[[labels0 c1] d1] mbd] & E1 & E). cbv zeta in E.
  apply bind_Ok_inv in E as (outl & EO & E). apply parse_output_space in EO; [|exact ND]. apply In_zero in IS. rewrite <- EO in IS. clear EO.
  apply bind_Ok_inv in E as (_ & _ & E). apply bind_Ok_inv in E as (extra & _ & E). apply bind_Ok_inv in E as (tmp & ES & _).
  destruct ops as [|a ops]; [congruence|]. destruct (labels0 ++ _) as [|l ls] eqn:EL.
  - apply app_eq_nil in EL as [-> EL]. discriminate.
  - cbn [all_strides] in ES. apply bind_Ok_inv in ES as ([l' st'] & _ & ES). apply bind_Ok_inv in ES as (s & ES & _).
    unfold operand_strides in ES. revert ES. assert (I : In 0%Z (outl ++ extra)) by (apply in_or_app; now left). revert I. generalize (outl ++ extra). clear.
    intros L. revert s. induction L as [|x L IH]; [intros s []|]. intros s [->|I] E; cbn [mapM] in E; [discriminate|]. apply bind_Ok_inv in E as (y & _ & E).
    apply bind_Ok_inv in E as (z & E & _). eapply IH; eauto.
Qed.
Print Assumptions C55_output_space_panics.

Lemma rse_go_zero labels out shape stride k : nth_error out k = Some 0%Z -> forall n idim nsh nst r, nth_error nsh k = Some 0 ->
  rse_go labels out shape stride idim n nsh nst = Ok (Some r) -> nth_error (fst r) k = Some 0.
Proof.
  intros K. induction n as [|n IH]; intros idim nsh nst r N E; cbn [rse_go] in E; [now injection E as <-|].
  apply bind_Ok_inv in E as (l & _ & E). destruct (Z.eqb_spec l 0) as [|NZ]; [discriminate|]. destruct (position out l) as [ax|] eqn:P; [|discriminate].
  apply bind_Ok_inv in E as (d & _ & E). apply bind_Ok_inv in E as (nsh' & ES & E). apply bind_Ok_inv in E as (s & _ & E). apply bind_Ok_inv in E as (o & _ & E).
  apply bind_Ok_inv in E as (nst' & _ & E). revert E. apply IH.
  assert (ax <> k). { intros ->. apply position_Some in P as [P _]. congruence. }
  unfold vset in ES. destruct (upd nsh ax d) as [u|] eqn:U; [|discriminate]. injection ES as ->. now rewrite (upd_nth_error _ _ _ _ k U), (proj2 (Nat.eqb_neq _ _)) by auto.
Qed.
Theorem C55_view_space_empty : forall a sub out r, ~ In 46%Z out -> In 32%Z out -> einsum_view a sub out = Ok (Some r) -> prod (a_shape r) = 0.
Proof.
  intros a sub out r ND IS E. unfold einsum_view in E. apply bind_Ok_inv in E as ([[[labels c1] d1] bd] & _ & E).
  apply bind_Ok_inv in E as (outl & EO & E). apply parse_output_space in EO; [|exact ND]. apply In_zero in IS. rewrite <- EO in IS. clear EO.
  apply bind_Ok_inv in E as ([[nsh nst]|] & ER & E); [|discriminate]. injection E as <-. apply In_nth_error in IS as (k & K).
  assert (KL : k < length outl) by (apply nth_error_Some; congruence).
  apply (rse_go_zero _ _ _ _ k K) in ER.
  - cbn [fst] in ER. apply nth_error_In in ER. cbn [a_shape]. clear -ER. induction nsh as [|n nsh IH]; [destruct ER|]. destruct ER as [->|I]; [reflexivity|]. rewrite prod_cons, IH by auto. lia.
  - rewrite (nth_error_nth' _ 0) by now rewrite repeat_length. f_equal. apply (repeat_spec (length outl)). apply nth_In. now rewrite repeat_length.
Qed.
Print Assumptions C55_view_space_empty.

(** removing the space changes both results *)
Theorem C55_space_refuted : exists (h : heap nat) a r, live h 0 3 /\ chain 0 3 false a /\
  einsum_view a [105]%Z [105; 32]%Z = Ok (Some r) /\ a_shape r = [3; 0] /\
  (exists r', einsum_view a [105]%Z [105]%Z = Ok (Some r') /\ a_shape r' = [3]) /\
  nd_einsum 0 1 (okadd Nat.add) (okadd Nat.mul) (okfma Nat.add Nat.mul) h [a] [[105]]%Z [105; 32]%Z = Panic /\
  nd_einsum 0 1 (okadd Nat.add) (okadd Nat.mul) (okfma Nat.add Nat.mul) h [a] [[32; 105]]%Z [105]%Z = Panic /\
  bind (nd_einsum 0 1 (okadd Nat.add) (okadd Nat.mul) (okfma Nat.add Nat.mul) h [a] [[105; 32; 32]]%Z [105]%Z) (fun p => elems (fst p) (snd p)) = Ok [7; 8; 9].
Proof.
  exists [Some [7; 8; 9]], (fresh_arr 0 3 [3]). eexists. split; [eexists; split; reflexivity|]. split; [apply Ch_new; cbn; lia|].
  split; [reflexivity|]. split; [reflexivity|]. split; [eexists; split; reflexivity|]. vm_compute. repeat split.
Qed.
Print Assumptions C55_space_refuted.
