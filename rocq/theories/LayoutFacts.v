(** LayoutFacts.v: proofs about Layout.v. *)
From Coq Require Import List Arith Lia Bool ZArith.
From Verif Require Import Base Spec Layout SpecFacts.
Import ListNotations.
Open Scope res_scope.

(** ** collapse *)
Lemma collapse_go_offsets sh : forall n s st a b,
  length sh = length st ->
  collapse_go n s sh st = (a, b) ->
  offsets a b = offsets (n :: sh) (s :: st) /\ length a = length b /\ length a <= S (length sh).
Proof.
  induction sh as [|n' sh IH]; intros n s [|s' st] a b L E; try discriminate.
  - cbn in E. injection E as <- <-. cbn; auto.
  - cbn [collapse_go] in E. cbn [length] in L.
    destruct ((s =? n' * s') || ((s =? 0) && (n =? 1))) eqn:C.
    + apply IH in E as (E1 & E2 & E3); [|lia]. split; [|cbn [length]; lia].
      rewrite E1. symmetry; apply offsets_merge.
      apply orb_true_iff in C as [C|C].
      * left. now apply Nat.eqb_eq.
      * apply andb_true_iff in C as [_ C]. right. apply Nat.eqb_eq in C. lia.
    + destruct (collapse_go n' s' sh st) as [a' b'] eqn:E'. injection E as <- <-.
      apply IH in E' as (E1 & E2 & E3); [|lia]. cbn [length]. split; [|lia].
      rewrite (offsets_cons n a'), (offsets_cons n (n' :: sh)). now rewrite E1.
Qed.

Lemma collapse_offsets sh st a b :
  length sh = length st -> collapse sh st = (a, b) ->
  offsets a b = offsets sh st /\ length a = length b /\ length a <= length sh.
Proof.
  destruct sh as [|n sh], st as [|s st]; cbn [length]; intros L E; try discriminate.
  - injection E as <- <-. auto.
  - cbn [collapse] in E. eapply collapse_go_offsets in E; [|lia]. exact E.
Qed.

Lemma collapse_go_prod sh : forall n s st a b, length sh = length st ->
  collapse_go n s sh st = (a, b) -> prod a = n * prod sh.
Proof.
  intros n s st a b L E. apply collapse_go_offsets in E as (E & _ & _); [|exact L].
  apply (f_equal (@length _)) in E. rewrite !offsets_length in E. now rewrite prod_cons in E.
Qed.

Lemma collapse_prod sh st a b : length sh = length st -> collapse sh st = (a, b) -> prod a = prod sh.
Proof.
  intros L E. apply collapse_offsets in E as (E & _ & _); [|exact L].
  apply (f_equal (@length _)) in E. now rewrite !offsets_length in E.
Qed.

Lemma collapse_nonempty sh st : length sh = length st -> sh <> [] -> fst (collapse sh st) <> [].
Proof.
  destruct sh as [|n sh], st as [|s st]; cbn [length]; intros L H; try congruence; try discriminate.
  clear H. cbn [collapse].
  revert n s st L; induction sh as [|n' sh IH]; intros n s [|s' st] L; cbn [length] in L; try discriminate.
  cbn [collapse_go]. destruct (_ || _).
  - apply IH; cbn; lia.
  - destruct (collapse_go n' s' sh st). discriminate.
Qed.

(** ** flat index generator *)
Lemma rank_zeros sh : rank (repeat 0 (length sh)) sh = 0.
Proof. induction sh as [|n sh IH]; cbn [length repeat rank]; lia. Qed.

Lemma dot_zeros n st : dot (repeat 0 n) st = 0.
Proof. revert st; induction n as [|n IH]; intros [|s st]; cbn [repeat dot]; auto. rewrite IH. lia. Qed.

Lemma in_range_zeros sh : 0 < prod sh -> in_range (repeat 0 (length sh)) sh.
Proof.
  induction sh as [|n sh IH]; intros H; [constructor|].
  rewrite prod_cons in H. cbn [length repeat]. constructor; [nia|apply IH; nia].
Qed.

Lemma fig_carry_spec sh : forall st idx flat base,
  length st = length sh -> in_range idx sh -> flat = base + dot idx st ->
  (rank idx sh + 1 < prod sh /\
   exists idx', fig_carry sh st idx flat = Ok (idx', base + dot idx' st, false) /\
                in_range idx' sh /\ rank idx' sh = rank idx sh + 1) \/
  (rank idx sh + 1 = prod sh /\
   fig_carry sh st idx flat = Ok (repeat 0 (length sh), base, true)).
Proof.
  induction sh as [|n sh IH]; intros [|s st] idx flat base L R F; cbn [length] in L; try discriminate.
  - inversion R; subst. right. cbn. split; [reflexivity|]. do 3 f_equal. lia.
  - inversion R as [|i n' idx1 sh' Hi Hr]; subst n' sh' idx.
    cbn [dot] in F.
    pose proof (rank_lt _ _ Hr) as RL.
    destruct (IH st idx1 flat (base + i * s) ltac:(lia) Hr ltac:(lia)) as [(K & idx' & E & R' & K')|(K & E)].
    + left. cbn [rank]. rewrite prod_cons. split; [nia|].
      exists (i :: idx'). cbn [fig_carry]. rewrite E. cbn [bind].
      split; [|split; [now constructor|cbn [rank]; lia]].
      cbn [dot]. do 3 f_equal. lia.
    + cbn [fig_carry rank]. rewrite E, prod_cons. cbn [bind].
      destruct (Nat.ltb_spec (i + 1) n) as [Hn|Hn].
      * left. split; [nia|]. exists (i + 1 :: repeat 0 (length sh)).
        split; [|split].
        -- cbn [dot]. rewrite dot_zeros. do 3 f_equal. lia.
        -- constructor; [exact Hn|]. apply in_range_zeros. lia.
        -- cbn [rank]. rewrite rank_zeros. lia.
      * right. assert (i = n - 1) by lia. subst i. split; [nia|].
        unfold csub. destruct (Nat.ltb_spec n 1); [lia|]. cbn [bind].
        destruct (Nat.ltb_spec (base + (n - 1) * s) (s * (n - 1))); [lia|]. cbn [bind length repeat].
        do 3 f_equal. lia.
Qed.

Definition fig_at (sh st : list nat) (k : nat) (idx : list nat) (flat : nat) : fig :=
  mkFig sh st (prod sh) k idx flat.

Lemma skipn_nth {A} (l : list A) k x : nth_error l k = Some x -> skipn k l = x :: skipn (S k) l.
Proof.
  revert l; induction k as [|k IH]; intros [|y l] H; try discriminate.
  - cbn in H. injection H as ->. reflexivity.
  - cbn [skipn]. apply IH in H. exact H.
Qed.

Lemma fig_run_spec sh st : length st = length sh -> forall fuel idx,
  in_range idx sh -> prod sh - rank idx sh < fuel ->
  fig_run fuel (fig_at sh st (rank idx sh) idx (dot idx st)) = Ok (skipn (rank idx sh) (offsets sh st)).
Proof.
  intros L. induction fuel as [|fuel IH]; intros idx R F; [lia|].
  cbn [fig_run]. unfold fig_at at 1. unfold fig_next. cbn [g_iter g_size g_shape g_stride g_idx g_flat].
  pose proof (rank_lt _ _ R) as RL.
  destruct (Nat.eqb_spec (rank idx sh) (prod sh)) as [E|_]; [lia|].
  rewrite (@skipn_nth _ (offsets sh st) (rank idx sh) (dot idx st)) by now apply offsets_nth.
  destruct (@fig_carry_spec sh st idx (dot idx st) 0 L R eq_refl) as [(K & idx' & E & R' & K')|(K & E)];
    rewrite E; cbn [bind].
  - cbn [Nat.add]. rewrite <- K'. change (mkFig sh st (prod sh) (rank idx' sh) idx' (dot idx' st)) with
      (fig_at sh st (rank idx' sh) idx' (dot idx' st)).
    rewrite IH; [|exact R'|lia]. cbn [bind].
    replace (S (rank idx sh)) with (rank idx' sh) by lia. reflexivity.
  - destruct fuel as [|fuel]; [lia|]. cbn [fig_run]. unfold fig_next. cbn [g_iter g_size].
    rewrite K, Nat.eqb_refl. cbn [bind].
    rewrite skipn_all2; [reflexivity|]. rewrite offsets_length. lia.
Qed.

Lemma fig_list_ok sh st :
  length st = length sh -> length (fst (collapse sh st)) <= MAX_DIMS ->
  fig_list sh st = Ok (offsets sh st).
Proof.
  intros L M. unfold fig_list, fig_from.
  destruct (collapse sh st) as [a b] eqn:E. cbn [fst] in M.
  destruct (Nat.ltb_spec MAX_DIMS (length a)); [lia|].
  apply collapse_offsets in E as (E & L' & _); [|lia].
  cbn [bind g_size].
  rewrite <- E.
  destruct (Nat.eq_dec (prod a) 0) as [Z|NZ].
  - cbn [fig_run]. unfold fig_next. cbn [g_iter g_size]. rewrite Z. cbn [Nat.eqb bind].
    unfold offsets. rewrite indices_0 by exact Z. reflexivity.
  - assert (R : in_range (repeat 0 (length a)) a) by (apply in_range_zeros; lia).
    pose proof (@fig_run_spec a b ltac:(lia) (S (prod a)) _ R) as F.
    rewrite rank_zeros, dot_zeros in F. apply F. lia.
Qed.

Lemma fig_list_ok' sh st :
  length st = length sh -> length sh <= MAX_DIMS -> fig_list sh st = Ok (offsets sh st).
Proof.
  intros L M. apply fig_list_ok; [exact L|].
  destruct (collapse sh st) as [a b] eqn:E. apply collapse_offsets in E as (_ & _ & E); cbn [fst]; lia.
Qed.

(** it fails only by the MAX_DIMS panic *)
Lemma fig_list_panic sh st :
  length st = length sh -> MAX_DIMS < length (fst (collapse sh st)) -> fig_list sh st = Panic.
Proof.
  intros L M. unfold fig_list, fig_from. destruct (collapse sh st) as [a b]. cbn [fst] in M.
  destruct (Nat.ltb_spec MAX_DIMS (length a)); [reflexivity|lia].
Qed.

(** ** row-major strides *)
Lemma stride_from_shape_go_spec sh : stride_from_shape_go sh = (rm_stride sh, prod sh).
Proof.
  induction sh as [|n sh IH]; [reflexivity|].
  cbn [stride_from_shape_go rm_stride]. rewrite IH, prod_cons. f_equal. lia.
Qed.

Lemma stride_from_shape_rm sh : stride_from_shape sh = rm_stride sh.
Proof. unfold stride_from_shape. now rewrite stride_from_shape_go_spec. Qed.

(** ** has_uniform_stride *)
Lemma has_uniform_go_spec sh : forall n s st u,
  length sh = length st ->
  no_bcast (n :: sh) (s :: st) ->
  has_uniform_go s sh st = Some u ->
  offsets (n :: sh) (s :: st) = map (fun k => k * u) (seq 0 (n * prod sh)).
Proof.
  induction sh as [|n' sh IH]; intros n s [|s' st] u L NB E; cbn [length] in L; try discriminate.
  - cbn in E. injection E as ->. rewrite offsets_cons, offsets_nil. cbn [prod fold_right].
    rewrite Nat.mul_1_r. clear. induction (seq 0 n) as [|i l IH]; [reflexivity|].
    cbn [flat_map map app] in *. rewrite <- IH. f_equal. lia.
  - cbn [has_uniform_go] in E.
    destruct (negb (s =? 0) && negb (s =? n' * s')) eqn:C; [discriminate|].
    inversion NB as [|? ? ? ? NB1 NB2]; subst.
    rewrite offsets_merge.
    + rewrite prod_cons, Nat.mul_assoc. apply IH; [lia| |exact E].
      inversion NB2 as [|? ? ? ? NB3 NB4]; subst. constructor; [|exact NB4].
      apply andb_false_iff in C. rewrite !negb_false_iff, !Nat.eqb_eq in C.
      destruct NB1 as [NB1|NB1]; [destruct NB3; [left|right]; nia|].
      destruct C as [C|C]; [contradiction|]. right. nia.
    + apply andb_false_iff in C. rewrite !negb_false_iff, !Nat.eqb_eq in C.
      destruct NB1 as [NB1|NB1]; [right; lia|]. destruct C as [C|C]; [contradiction|left; exact C].
Qed.

Lemma has_uniform_spec sh st u :
  length sh = length st -> no_bcast sh st -> has_uniform_stride sh st = Some u ->
  offsets sh st = map (fun k => k * u) (seq 0 (prod sh)).
Proof.
  destruct sh as [|n sh], st as [|s st]; cbn [length]; intros L NB E; try discriminate.
  - reflexivity.
  - cbn [has_uniform_stride] in E. rewrite prod_cons. apply has_uniform_go_spec; auto.
Qed.

(** the rank-k element sits at k * u *)
Lemma uniform_dot sh st u idx :
  length sh = length st -> no_bcast sh st -> has_uniform_stride sh st = Some u ->
  in_range idx sh -> dot idx st = rank idx sh * u.
Proof.
  intros L NB E R. apply has_uniform_spec in E; [|auto|auto].
  pose proof (offsets_nth sh st _ R) as N. rewrite E, nth_error_map, nth_error_seq in N by now apply rank_lt.
  cbn in N. congruence.
Qed.

Lemma rm_uniform n sh : has_uniform_stride (n :: sh) (rm_stride (n :: sh)) = Some 1.
Proof.
  cbn [rm_stride has_uniform_stride].
  induction sh as [|m sh IH]; [reflexivity|].
  cbn [rm_stride has_uniform_go]. rewrite prod_cons, Nat.eqb_refl. cbn [negb]. rewrite andb_false_r. exact IH.
Qed.
