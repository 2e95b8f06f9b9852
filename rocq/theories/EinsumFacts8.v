(** EinsumFacts8.v: an einsum request that is rejected panics before touching memory, and
    what an accepted request must satisfy. *)
From Coq Require Import List Arith Lia Bool ZArith Permutation.
From Verif Require Import Base Spec Layout SpecFacts LayoutFacts Views ViewsFacts Kernels Access HeapFacts ReduceFacts Reduce
  Einsum EinsumFacts EinsumFacts2 EinsumFacts3 EinsumFacts4 EinsumFacts5.
Import ListNotations.
Open Scope res_scope.

Definition noob {A} (m : res A) : Prop := m <> Oob.
Lemma noob_Ok {A} (x : A) : noob (Ok x). Proof. discriminate. Qed.
Lemma noob_Panic {A} : noob (@Panic A). Proof. discriminate. Qed.
Lemma noob_bind {A B} (m : res A) (k : A -> res B) : noob m -> (forall x, noob (k x)) -> noob (bind m k).
Proof. intros M K. destruct m; cbn [bind]; [apply K|discriminate|now exfalso; apply M]. Qed.
Lemma noob_guard b : noob (guard b). Proof. now destruct b. Qed.
Lemma noob_csub a b : noob (csub a b). Proof. unfold csub. now destruct (a <? b). Qed.
Lemma noob_vget {A} (l : list A) i : noob (vget l i). Proof. unfold vget. now destruct (nth_error l i). Qed.
Lemma noob_vset {A} (l : list A) i x : noob (vset l i x). Proof. unfold vset. now destruct (upd l i x). Qed.
Lemma noob_mapM {A B} (f : A -> res B) l : (forall x, noob (f x)) -> noob (mapM f l).
Proof. intros H. induction l; cbn [mapM]; [discriminate|]. apply noob_bind; [auto|]. intros y. apply noob_bind; [auto|]. discriminate. Qed.
Lemma noob_for_each {A S} (f : A -> S -> res S) l : (forall x s, noob (f x s)) -> forall s, noob (for_each f l s).
Proof. intros H. induction l; intros s; cbn [for_each]; [discriminate|]. apply noob_bind; auto. Qed.

Ltac nb :=
  repeat first
    [ apply noob_Ok | apply noob_Panic | apply noob_guard | apply noob_csub | apply noob_vget | apply noob_vset
    | assumption
    | match goal with
      | |- noob (bind _ _) => apply noob_bind; [|intros ?]
      | |- noob (mapM _ _) => apply noob_mapM; intros ?
      | |- noob (for_each _ _ _) => apply noob_for_each; intros ? ?
      | H : forall _, _ |- _ => apply H
      | |- noob (match ?x with _ => _ end) => destruct x
      | |- noob (let '(_, _) := ?x in _) => destruct x
      end ].

Lemma noob_zero_range n : forall l i, noob (zero_range l i n).
Proof. induction n as [|n IH]; intros l i; cbn [zero_range]; nb. Qed.
Lemma noob_parse_go shape bd : forall cs i labels first counts dims ell check, noob (parse_go shape bd i cs labels first counts dims ell check).
Proof. induction cs as [|c cs IH]; intros; cbn [parse_go]; nb. apply noob_zero_range. Qed.
Lemma noob_parse_operand cs shape counts dims : noob (parse_operand cs shape counts dims).
Proof. unfold parse_operand. nb. apply noob_parse_go. Qed.
Lemma noob_parse_out_go bd counts : forall cs i labels ell check, noob (parse_out_go bd i cs labels counts ell check).
Proof. induction cs as [|c cs IH]; intros; cbn [parse_out_go]; nb. apply noob_zero_range. Qed.
Lemma noob_parse_output cs bd counts : noob (parse_output cs bd counts).
Proof. unfold parse_output, vprefix. nb. apply noob_parse_out_go. Qed.
Lemma noob_zget {A} (l : list A) i : noob (zget l i).
Proof. unfold zget. nb. Qed.
Lemma noob_label_of l i : noob (label_of l i).
Proof. unfold label_of. nb. apply noob_zget. Qed.
Lemma noob_rse_go labels out shape stride : forall n idim nsh nst, noob (rse_go labels out shape stride idim n nsh nst).
Proof. induction n as [|n IH]; intros; cbn [rse_go]; nb. apply noob_label_of. Qed.
Lemma noob_merge_go labels shape stride : forall n axis cmap nsh nst, noob (merge_go labels shape stride axis n cmap nsh nst).
Proof. induction n as [|n IH]; intros; cbn [merge_go]; nb. apply noob_zget. Qed.
Lemma noob_relabel_go : forall cmap axis labels, noob (relabel_go cmap axis labels).
Proof. induction cmap as [|c cmap IH]; intros; cbn [relabel_go]; nb. Qed.
Lemma noob_stride_sum labels stride label : forall n index acc, noob (stride_sum labels stride label index n acc).
Proof. induction n as [|n IH]; intros; cbn [stride_sum]; nb. apply noob_label_of. Qed.
Lemma noob_operand_strides labels stride iter : noob (operand_strides labels stride iter).
Proof. unfold operand_strides. nb. apply noob_stride_sum. Qed.
Lemma noob_reshape_operand a l : noob (reshape_operand a l).
Proof. unfold reshape_operand. nb. apply noob_merge_go. apply noob_relabel_go. Qed.
Lemma noob_parse_all : forall subs ops counts dims mbd, noob (parse_all subs ops counts dims mbd).
Proof. induction subs as [|s subs IH]; intros; cbn [parse_all]; nb. apply noob_parse_operand. Qed.
Lemma noob_extra counts out : forall ls n, noob (extra_labels counts out ls n).
Proof. induction ls as [|s subs IH]; intros; cbn [extra_labels]; nb. Qed.
Lemma noob_all_strides iter : forall ops labels, noob (all_strides ops labels iter).
Proof. induction ops as [|a ops IH]; intros; cbn [all_strides]; nb. apply noob_reshape_operand. apply noob_operand_strides. Qed.
Lemma noob_find_pos strides order s0 : forall i pos, noob (find_pos strides order s0 i pos).
Proof. induction i as [|i IH]; intros; cbn [find_pos]; nb. Qed.
Lemma noob_shift_order : forall n order k, noob (shift_order order k n).
Proof. induction n as [|n IH]; intros; cbn [shift_order]; nb. Qed.
Lemma noob_best n strides : noob (find_best_axis_ordering n strides).
Proof. unfold find_best_axis_ordering, order_step. nb. apply noob_find_pos. apply noob_shift_order. Qed.

Lemma prepare_no_oob ops subs out : prepare_einsum ops subs out <> Oob.
Proof.
  unfold prepare_einsum, reshape_for_einsum, permute_array.
  change (noob (_ <- guard (length ops <? MAX_ARGS) ;; r <- parse_all subs ops (fun _ => 0) (fun _ => 0) 0 ;;
  let '(labels0, counts, dims, mbd) := r in
  let labels := labels0 ++ repeat (repeat 0%Z MAX_DIMS) (length ops - length labels0) in
  outl <- parse_output out mbd counts ;;
  _ <- match ops, labels with
       | [a], l :: _ => _ <- reshape_for_einsum a l outl ;; Ok tt
       | _, _ => Ok tt
       end ;;
  let out_shape := map dims outl in
  extra <- extra_labels counts outl (map Z.of_nat (seq 0 128)) (length outl) ;;
  let iter_labels := outl ++ extra in
  let iter_shape := map dims iter_labels in
  tmp <- all_strides ops labels iter_labels ;;
  let out_stride := stride_from_shape out_shape ++ repeat 0 (length extra) in
  let strides := map (fun i => map (fun t => nth i t 0) (tmp ++ [out_stride])) (seq 0 (length iter_labels)) in
  o <- find_best_axis_ordering (length iter_labels) strides ;;
  match o with
  | None => Ok (strides, iter_shape, out_shape)
  | Some ord =>
      s' <- permute_array strides ord ;; sh' <- permute_array iter_shape ord ;; Ok (s', sh', out_shape)
  end)).
  apply noob_bind; [apply noob_guard|intros _]. apply noob_bind; [apply noob_parse_all|intros [[[labels0 counts] dims] mbd]].
  cbv zeta. apply noob_bind; [apply noob_parse_output|intros outl]. apply noob_bind.
  { destruct ops as [|a [|? ?]]; [apply noob_Ok| |apply noob_Ok]. match goal with |- noob (match ?x with _ => _ end) => destruct x end; nb. unfold reshape_for_einsum. apply noob_rse_go. }
  intros _. apply noob_bind; [apply noob_extra|intros extra]. apply noob_bind; [apply noob_all_strides|intros tmp].
  apply noob_bind; [apply noob_best|intros [ord|]]; [|nb]. unfold permute_array. nb.
Qed.

Lemma parse_all_inv : forall subs ops counts dims mbd r, Forall (fun s => ~ In DOT s) subs ->
  parse_all subs ops counts dims mbd = Ok r ->
  exists labels' counts' dims', r = (labels', counts', dims', mbd) /\
    (forall c, counts c <= counts' c) /\ (forall c, 0 < counts c -> dims' c = dims c) /\
    (forall c, 0 < counts' c -> 0 < counts c \/ exists s, In s subs /\ In c s /\ is_alpha c = true) /\
    (forall k s a, nth_error subs k = Some s -> nth_error ops k = Some a ->
      length (filter is_alpha s) = length (a_shape a) /\
      forall j c, nth_error s j = Some c -> is_alpha c = true -> 0 < counts' c /\ nth_error (a_shape a) j = Some (dims' c)).
Proof.
  induction subs as [|s subs IH]; intros ops counts dims mbd r F E; [|destruct ops as [|a ops]]; cbn [parse_all] in E.
  - injection E as <-. exists [], counts, dims. repeat split; auto; destruct k; discriminate.
  - injection E as <-. exists [], counts, dims. repeat split; auto; destruct k; discriminate.
  - apply Forall_cons_iff in F as [NS F]. apply bind_Ok_inv in E as (r1 & E1 & E).
    apply parse_operand_inv in E1 as (l1 & c1 & d1 & -> & LA & HC1 & HD1 & HP1 & HN1); [|exact NS].
    apply bind_Ok_inv in E as (r2 & E2 & E). rewrite Nat.max_0_r in E2.
    apply IH in E2 as (l2 & c2 & d2 & -> & HC2 & HD2 & HP2 & HN2); [|exact F]. injection E as <-.
    exists (l1 :: l2), c2, d2. split; [reflexivity|]. split; [|split; [|split]].
    + intros c. specialize (HC1 c). specialize (HC2 c). lia.
    + intros c C. rewrite HD2; [now apply HD1|]. specialize (HC1 c). lia.
    + intros c C. destruct (HP2 c C) as [H|(s' & I & J)]; [|right; exists s'; split; auto; now right].
      destruct (HP1 c H) as [H'|[I A]]; auto. right. exists s. split; [now left|auto].
    + intros [|k] s' a' K1 K2; cbn [nth_error] in K1, K2; [|eauto]. injection K1 as <-. injection K2 as <-. split; [exact LA|].
      intros j c J A. destruct (HN1 j c J A) as [P N]. split; [specialize (HC2 c); lia|]. rewrite N. f_equal. symmetry. now apply HD2.
Qed.

(** an accepted request *)
Lemma prepare_inv ops subs out r : Forall (fun s => ~ In DOT s) subs -> ~ In DOT out -> prepare_einsum ops subs out = Ok r ->
  length ops < MAX_ARGS /\
  (exists dm : Z -> nat, forall k s a, nth_error subs k = Some s -> nth_error ops k = Some a ->
      length (filter is_alpha s) = length (a_shape a) /\
      forall j c, nth_error s j = Some c -> is_alpha c = true -> nth_error (a_shape a) j = Some (dm c)) /\
  (forall c, In c out -> is_alpha c = true -> exists s, In s subs /\ In c s) /\
  (forall j k c, j < k -> nth_error out j = Some c -> nth_error out k = Some c -> is_alpha c = false) /\
  (forall c, In c out -> is_alpha c = true \/ c = SPACE).
Proof.
  intros F NO E. unfold prepare_einsum in E. apply guard_inv in E as [LA E]. apply Nat.ltb_lt in LA. split; [exact LA|].
  apply bind_Ok_inv in E as (r1 & E1 & E). apply parse_all_inv in E1 as (l1 & c1 & d1 & -> & HC & HD & HP & HN); [|exact F].
  cbv zeta in E. apply bind_Ok_inv in E as (outl & EO & _). split.
  - exists d1. intros k s a K1 K2. destruct (HN k s a K1 K2) as [L H]. split; [exact L|]. intros j c J A. now apply H.
  - unfold parse_output in EO. apply guard_inv in EO as [_ EO]. apply bind_Ok_inv in EO as (ro & EO & _).
    apply parse_out_go_inv in EO as (FO & HO & HN'); [|exact NO]. split; [|split].
    + intros c I A. destruct (HP c (HO c I A)) as [H|(s & I1 & I2 & _)]; [lia|eauto].
    + exact HN'.
    + now apply Forall_forall.
Qed.
