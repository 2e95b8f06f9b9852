(** EinsumParse.v: labels as loop variables and parsing of subscripts.  These facts come
    before the facts on view chains, which use them for einsum_view. *)
From Coq Require Import List Arith Lia Bool ZArith Permutation.
From Verif Require Import Base Spec Layout SpecFacts LayoutFacts Views ViewsFacts Kernels Access HeapFacts Reduce Einsum.
Import ListNotations.
Open Scope res_scope.

Lemma vset_mid {A} (l : list A) x r y k : k = length l -> vset (l ++ x :: r) k y = Ok (l ++ y :: r).
Proof. intros ->. unfold vset. enough (upd (l ++ x :: r) (length l) y = Some (l ++ y :: r)) as -> by reflexivity. induction l as [|z l IH]; cbn; [reflexivity|]. now rewrite IH. Qed.
Lemma vget_mid {A} (l : list A) x r k : k = length l -> vget (l ++ x :: r) k = Ok x.
Proof. intros ->. unfold vget. rewrite nth_error_app2 by lia. now rewrite Nat.sub_diag. Qed.

Lemma map_lookup L : NoDup L -> forall idx, length idx = length L -> map (lookup L idx) L = idx.
Proof.
  induction L as [|x L IH]; intros ND idx E; destruct idx as [|i idx]; try discriminate; [reflexivity|].
  inversion ND as [|? ? N ND']; subst. cbn [map]. f_equal.
  - cbn [lookup]. now rewrite Z.eqb_refl.
  - transitivity (map (lookup L idx) L); [|apply IH; auto; now injection E]. apply map_ext_in. intros l I. cbn [lookup].
    destruct (Z.eqb_spec x l); [subst; contradiction|reflexivity].
Qed.

Lemma lookup_lt d L : forall idx l, in_range idx (map d L) -> In l L -> lookup L idx l < d l.
Proof.
  induction L as [|x L IH]; intros idx l R I; [destruct I|]. cbn [map] in R. destruct idx as [|i idx]; [inversion R|].
  apply in_range_cons in R as [R0 R]. cbn [lookup]. destruct (Z.eqb_spec x l) as [->|N]; [exact R0|]. apply IH; auto.
  destruct I; [congruence|auto].
Qed.

Lemma in_range_lookup d L idx sub : in_range idx (map d L) -> incl sub L -> in_range (map (lookup L idx) sub) (map d sub).
Proof.
  intros R. induction sub as [|c sub IH]; intros I; [constructor|]. cbn [map]. constructor.
  - apply lookup_lt; auto. apply I. now left.
  - apply IH. intros x J. apply I. now right.
Qed.

(** total stride of the axes carrying a label *)
Fixpoint lsum (sub : list Z) (st : list nat) (l : Z) : nat :=
  match sub, st with
  | c :: sub', s :: st' => (if (l =? c)%Z then s else 0) + lsum sub' st' l
  | _, _ => 0
  end.

Lemma dot_map_add {A} (e f g : A -> nat) L : dot (map e L) (map (fun l => f l + g l) L) = dot (map e L) (map f L) + dot (map e L) (map g L).
Proof. induction L as [|x L IH]; cbn [map dot]; [reflexivity|]. rewrite IH. lia. Qed.

Lemma dot_map_0 {A} (e : A -> nat) L : dot (map e L) (map (fun _ => 0) L) = 0.
Proof. induction L as [|x L IH]; cbn [map dot]; lia. Qed.

Lemma dot_map_one (e : Z -> nat) c s L : NoDup L -> In c L -> dot (map e L) (map (fun l => if (l =? c)%Z then s else 0) L) = e c * s.
Proof.
  induction L as [|x L IH]; intros ND I; [destruct I|]. inversion ND as [|? ? N ND']; subst. cbn [map dot].
  destruct (Z.eqb_spec x c) as [->|NE].
  - rewrite (map_ext_in (fun l => if (l =? c)%Z then s else 0) (fun _ => 0)); [rewrite dot_map_0; lia|]. intros l J. destruct (Z.eqb_spec l c); [subst; contradiction|reflexivity].
  - rewrite IH; auto; [lia|]. destruct I; [congruence|auto].
Qed.

Lemma dot_lsum e L : NoDup L -> forall sub st, length sub = length st -> incl sub L ->
  dot (map e L) (map (lsum sub st) L) = dot (map e sub) st.
Proof.
  intros ND. induction sub as [|c sub IH]; intros st E I; destruct st as [|s st]; try discriminate.
  - cbn [map dot]. rewrite (map_ext (lsum [] []) (fun _ => 0)) by reflexivity. apply dot_map_0.
  - injection E as E. cbn [map dot]. rewrite (map_ext (lsum (c :: sub) (s :: st)) (fun l => (if (l =? c)%Z then s else 0) + lsum sub st l)) by reflexivity.
    rewrite dot_map_add, dot_map_one; [|auto|apply I; now left].
    rewrite IH; auto. intros x J. apply I. now right.
Qed.

Lemma lsum_app s1 s2 t1 t2 l : length s1 = length t1 -> lsum (s1 ++ s2) (t1 ++ t2) l = lsum s1 t1 l + lsum s2 t2 l.
Proof.
  revert t1. induction s1 as [|c s1 IH]; intros [|t t1] E; try discriminate; [reflexivity|]. cbn [app lsum]. rewrite IH by now injection E. lia.
Qed.

Lemma lsum_notin s t l : ~ In l s -> lsum s t l = 0.
Proof.
  revert t. induction s as [|c s IH]; intros [|x t] N; cbn [lsum]; auto. destruct (Z.eqb_spec l c) as [->|NE]; [exfalso; apply N; now left|].
  apply IH. intros I. apply N. now right.
Qed.

(** ** Encoded labels *)
Fixpoint enc (pre cs : list Z) : list Z :=
  match cs with
  | [] => []
  | c :: cs' => match position pre c with None => c | Some f => (Z.of_nat f - Z.of_nat (length pre))%Z end :: enc (pre ++ [c]) cs'
  end.

Lemma enc_app pre a b : enc pre (a ++ b) = enc pre a ++ enc (pre ++ a) b.
Proof.
  revert pre. induction a as [|c a IH]; intros pre; cbn [app enc].
  - now rewrite app_nil_r.
  - f_equal. rewrite IH. now rewrite <- app_assoc.
Qed.
Lemma enc_length pre cs : length (enc pre cs) = length cs.
Proof. revert pre. induction cs as [|c cs IH]; intros pre; cbn [enc length]; auto. Qed.

Lemma position_None l x : position l x = None <-> ~ In x l.
Proof.
  induction l as [|y l IH]; cbn [position]; [split; auto|]. destruct (Z.eqb_spec y x) as [->|N].
  - split; [discriminate|]. intros H. exfalso. apply H. now left.
  - destruct (position l x).
    + split; [discriminate|]. intros H. exfalso. assert (~ In x l) as Hn by (intros I; apply H; now right). apply IH in Hn. discriminate.
    + split; auto. intros _ [E|I]; [congruence|]. now apply (proj1 IH).
Qed.
Lemma position_Some l x k : position l x = Some k -> nth_error l k = Some x /\ position (firstn k l) x = None.
Proof.
  revert k. induction l as [|y l IH]; cbn [position]; intros k E; [discriminate|]. destruct (Z.eqb_spec y x) as [->|N].
  - injection E as <-. now cbn.
  - destruct (position l x) as [j|]; [|discriminate]. injection E as <-. destruct (IH j eq_refl) as [H1 H2]. split; [exact H1|].
    cbn [firstn position]. destruct (Z.eqb_spec y x); [congruence|]. now rewrite H2.
Qed.
Lemma position_lt l x k : position l x = Some k -> k < length l.
Proof. intros H. apply position_Some in H as [H _]. apply nth_error_Some. congruence. Qed.
Lemma position_app l1 l2 x : position (l1 ++ l2) x = match position l1 x with Some k => Some k | None => option_map (Nat.add (length l1)) (position l2 x) end.
Proof.
  induction l1 as [|y l1 IH]; cbn [app position length].
  - destruct (position l2 x); reflexivity.
  - destruct (y =? x)%Z; [reflexivity|]. rewrite IH. destruct (position l1 x); [reflexivity|]. destruct (position l2 x); reflexivity.
Qed.

Lemma enc_nth pre cs : forall j c, nth_error cs j = Some c ->
  nth_error (enc pre cs) j = Some (match position (pre ++ firstn j cs) c with None => c | Some f => (Z.of_nat f - Z.of_nat (length pre + j))%Z end).
Proof.
  revert pre. induction cs as [|x cs IH]; intros pre j c E; destruct j as [|j]; try discriminate.
  - injection E as ->. cbn [enc nth_error firstn]. now rewrite app_nil_r, Nat.add_0_r.
  - cbn [enc nth_error firstn]. cbn [nth_error] in E. rewrite (IH _ _ _ E). rewrite <- app_assoc. cbn [app].
    rewrite app_length. cbn [length]. replace (length pre + 1 + j) with (length pre + S j) by lia. reflexivity.
Qed.

Lemma vget_error {A} (l : list A) i x : nth_error l i = Some x -> vget l i = Ok x.
Proof. intros E. unfold vget. now rewrite E. Qed.

Lemma is_alpha_pos c : is_alpha c = true -> (0 < c < 128)%Z.
Proof. unfold is_alpha. intros H. apply orb_true_iff in H. rewrite !andb_true_iff, !Z.leb_le in H. lia. Qed.
Lemma is_alpha_alnum c : is_alpha c = true -> is_alnum c = true.
Proof. unfold is_alnum. now intros ->. Qed.
Lemma is_alpha_ascii c : is_alpha c = true -> is_ascii c = true.
Proof. intros H. apply is_alpha_pos in H. unfold is_ascii. rewrite andb_true_iff, Z.leb_le, Z.ltb_lt. lia. Qed.

Definition letters (s : list Z) : Prop := Forall (fun c => is_alpha c = true) s.

Lemma letters_filter s : letters s -> filter is_alnum s = s.
Proof. induction 1 as [|c s H F IH]; cbn [filter]; [reflexivity|]. now rewrite (is_alpha_alnum c H), IH. Qed.
Lemma letters_ascii s : letters s -> forallb is_ascii s = true.
Proof. induction 1 as [|c s H F IH]; cbn [forallb]; [reflexivity|]. now rewrite (is_alpha_ascii c H), IH. Qed.

(** labels decodes to dec (axis j carries label dec[j]) *)
Definition decodes (labels dec : list Z) : Prop := forall j c, nth_error dec j = Some c -> label_of labels j = Ok c.

Lemma decodes_enc sub tail : letters sub -> decodes (enc [] sub ++ tail) sub.
Proof.
  intros A j c E. assert (LJ : j < length sub) by (apply nth_error_Some; congruence).
  assert (G : forall i x, nth_error (enc [] sub) i = Some x -> nth_error (enc [] sub ++ tail) i = Some x).
  { intros i x H. rewrite nth_error_app1; auto. apply nth_error_Some. congruence. }
  assert (PC : forall i x, nth_error sub i = Some x -> (0 < x)%Z).
  { intros i x H. apply is_alpha_pos. now apply (proj1 (Forall_forall _ _) A x (nth_error_In _ _ H)). }
  pose proof (enc_nth [] sub j c E) as N. cbn [app length Nat.add] in N. unfold label_of. rewrite (vget_error _ _ _ (G _ _ N)). cbn [bind].
  destruct (position (firstn j sub) c) as [f|] eqn:P.
  - pose proof (position_lt _ _ _ P) as LF. rewrite firstn_length in LF. destruct (position_Some _ _ _ P) as [P1 P2].
    rewrite firstn_firstn, Nat.min_l in P2 by lia.
    assert (NF : nth_error sub f = Some c). { rewrite <- P1. symmetry. rewrite <- (firstn_skipn j sub) at 2. rewrite nth_error_app1; auto. rewrite firstn_length. lia. }
    rewrite (proj2 (Z.ltb_lt _ _)) by lia. unfold zget. rewrite (proj2 (Z.ltb_ge _ _)) by lia.
    replace (Z.to_nat _) with f by lia. apply vget_error. apply G. rewrite (enc_nth [] sub f c NF). cbn [app length Nat.add]. now rewrite P2.
  - pose proof (PC _ _ E). rewrite (proj2 (Z.ltb_ge _ _)) by lia. reflexivity.
Qed.

Definition pad (l : list Z) : list Z := l ++ repeat 0%Z (MAX_DIMS - length l).

Lemma set_at_same {A} (f : Z -> A) k v : set_at f k v k = v.
Proof. unfold set_at. now rewrite Z.eqb_refl. Qed.
Lemma set_at_other {A} (f : Z -> A) k v x : x <> k -> set_at f k v x = f x.
Proof. unfold set_at. intros N. now rewrite (proj2 (Z.eqb_neq _ _) N). Qed.

Lemma pad_cons_snoc l x : length l < MAX_DIMS -> pad l = l ++ 0%Z :: repeat 0%Z (MAX_DIMS - S (length l)) /\
  pad (l ++ [x]) = l ++ x :: repeat 0%Z (MAX_DIMS - S (length l)).
Proof.
  intros H. unfold pad. split.
  - replace (MAX_DIMS - length l) with (S (MAX_DIMS - S (length l))) by lia. reflexivity.
  - rewrite app_length, <- app_assoc. cbn [length app]. now rewrite Nat.add_1_r.
Qed.

Lemma parse_go_ok dm shape : length shape <= MAX_DIMS -> forall cs pre first counts dims, letters cs -> shape = map dm (pre ++ cs) ->
  (forall c, first c = position pre c) -> (forall c, 0 < counts c -> dims c = dm c) ->
  exists counts' dims', parse_go shape 0 (length pre) cs (pad (enc [] pre)) first counts dims false false =
      Ok (pad (enc [] (pre ++ cs)), counts', dims', false, false) /\
    (forall c, counts' c = 0 <-> counts c = 0 /\ ~ In c cs) /\ (forall c, 0 < counts' c -> dims' c = dm c).
Proof.
  intros LS. induction cs as [|c cs IH]; intros pre first counts dims A SH HF HD; cbn [parse_go].
  - exists counts, dims. rewrite app_nil_r. split; [reflexivity|]. split; [|exact HD]. intros c. cbn [In]. tauto.
  - apply Forall_cons_iff in A as [AC A]. rewrite AC. cbn [bind].
    assert (LP : length pre < length shape). { rewrite SH, map_length, app_length. cbn [length]. lia. }
    rewrite (proj2 (Nat.ltb_lt _ _) LP). cbn [guard bind].
    assert (EV : vget shape (length pre) = Ok (dm c)).
    { apply vget_error. rewrite SH, map_app, nth_error_app2 by now rewrite map_length. rewrite map_length, Nat.sub_diag. reflexivity. }
    set (e := match position pre c with None => c | Some f => (Z.of_nat f - Z.of_nat (length pre))%Z end).
    assert (ES : vset (pad (enc [] pre)) (length pre) (match first c with None => c | Some f => Z.of_nat f - Z.of_nat (length pre) end)%Z = Ok (pad (enc [] (pre ++ [c])))).
    { rewrite HF. fold e. rewrite enc_app. cbn [app enc]. fold e. destruct (pad_cons_snoc (enc [] pre) e) as [-> ->]; [rewrite enc_length; lia|].
      apply vset_mid. now rewrite enc_length. }
    rewrite ES. cbn [bind]. rewrite EV. cbn [bind]. rewrite set_at_same.
    assert (EP : S (length pre) = length (pre ++ [c])) by (rewrite app_length; cbn [length]; lia).
    rewrite EP. rewrite (app_assoc pre [c] cs : pre ++ c :: cs = _) in SH. rewrite (app_assoc pre [c] cs : pre ++ c :: cs = _).
    assert (FF : forall x, (match first c with None => set_at first c (Some (length pre)) | Some _ => first end) x = position (pre ++ [c]) x).
    { intros x. rewrite position_app. cbn [position]. rewrite <- !HF. destruct (first c) as [f|] eqn:EF.
      - destruct (first x) eqn:EX; [reflexivity|]. destruct (Z.eqb_spec c x); [congruence|reflexivity].
      - unfold set_at. destruct (Z.eqb_spec x c) as [->|N].
        + rewrite EF, Z.eqb_refl. cbn [option_map]. now rewrite Nat.add_0_r.
        + destruct (first x); [reflexivity|]. destruct (Z.eqb_spec c x); [congruence|reflexivity]. }
    assert (IC : forall counts' x, (counts' x = 0 <-> set_at counts c (counts c + 1) x = 0 /\ ~ In x cs) -> (counts' x = 0 <-> counts x = 0 /\ ~ In x (c :: cs))).
    { intros counts' x H. rewrite H. cbn [In]. destruct (Z.eq_dec x c) as [->|N].
      - rewrite set_at_same. split; [lia|]. intros [_ F]. tauto.
      - rewrite set_at_other by auto. split; intros [H1 H2]; split; auto. intros [E|I]; [congruence|auto]. }
    destruct (counts c + 1 =? 1) eqn:E1.
    + destruct (IH (pre ++ [c]) (match first c with None => set_at first c (Some (length pre)) | Some _ => first end) (set_at counts c (counts c + 1)) (set_at dims c (dm c)) A SH FF) as (c' & d' & E & HC & HD').
      * intros x. destruct (Z.eq_dec x c) as [->|N]; [now rewrite !set_at_same|]. rewrite !set_at_other by auto. apply HD.
      * exists c', d'. rewrite E. split; [reflexivity|]. split; [|exact HD']. intros x. apply IC. apply HC.
    + apply Nat.eqb_neq in E1. rewrite (HD c) by lia. rewrite Nat.eqb_refl. cbn [guard bind].
      destruct (IH (pre ++ [c]) (match first c with None => set_at first c (Some (length pre)) | Some _ => first end) (set_at counts c (counts c + 1)) dims A SH FF) as (c' & d' & E & HC & HD').
      * intros x. destruct (Z.eq_dec x c) as [->|N]; [intros _; apply HD; lia|]. rewrite !set_at_other by auto. apply HD.
      * exists c', d'. rewrite E. split; [reflexivity|]. split; [|exact HD']. intros x. apply IC. apply HC.
Qed.

Lemma parse_operand_ok dm sub shape counts dims : letters sub -> shape = map dm sub -> length shape <= MAX_DIMS ->
  (forall c, 0 < counts c -> dims c = dm c) ->
  exists counts' dims', parse_operand sub shape counts dims = Ok (pad (enc [] sub), counts', dims', 0) /\
    (forall c, counts' c = 0 <-> counts c = 0 /\ ~ In c sub) /\ (forall c, 0 < counts' c -> dims' c = dm c).
Proof.
  intros A SH LM HD. unfold parse_operand. rewrite letters_ascii by auto. cbn [guard bind]. rewrite letters_filter by auto.
  rewrite SH, map_length, Nat.ltb_irrefl, Nat.sub_diag.
  destruct (parse_go_ok dm (map dm sub) ltac:(now rewrite <- SH) sub [] (fun _ => None) counts dims A eq_refl ltac:(reflexivity) HD) as (c' & d' & E & HC & HD').
  cbn [length app] in E. change (pad (enc [] [])) with (repeat 0%Z MAX_DIMS) in E.
  rewrite E. cbn [bind negb guard orb Nat.eqb]. exists c', d'. split; [reflexivity|]. now split.
Qed.

Lemma parse_out_go_ok counts : forall cs pre, letters cs -> NoDup cs -> (forall c, In c cs -> counts c <> 0) -> length (pre ++ cs) <= MAX_DIMS ->
  parse_out_go 0 (length pre) cs (pad pre) counts false false = Ok (pad (pre ++ cs), false).
Proof.
  induction cs as [|c cs IH]; intros pre A ND HC LM; cbn [parse_out_go].
  - now rewrite app_nil_r.
  - apply Forall_cons_iff in A as [AC A]. rewrite AC. apply NoDup_cons_iff in ND as [NI ND].
    rewrite (proj2 (Nat.eqb_neq _ _) (HC c (or_introl eq_refl))). cbn [negb guard bind].
    replace (existsb (Z.eqb c) cs) with false.
    2: { symmetry. apply not_true_is_false. intros E. apply existsb_exists in E as (x & I & E). apply Z.eqb_eq in E. now subst. }
    cbn [negb guard bind].
    rewrite app_length in LM. cbn [length] in LM.
    destruct (pad_cons_snoc pre c) as [EP1 EP2]; [lia|]. rewrite EP1, vset_mid by reflexivity. cbn [bind]. rewrite <- EP2.
    replace (S (length pre)) with (length (pre ++ [c])) by (rewrite app_length; cbn [length]; lia).
    rewrite IH; auto.
    + now rewrite <- app_assoc.
    + intros x I. apply HC. now right.
    + rewrite !app_length. cbn [length]. lia.
Qed.

Lemma parse_output_ok counts out : letters out -> NoDup out -> (forall c, In c out -> counts c <> 0) -> length out <= MAX_DIMS ->
  parse_output out 0 counts = Ok out.
Proof.
  intros A ND HC LM. unfold parse_output. rewrite letters_ascii by auto. cbn [guard bind].
  pose proof (parse_out_go_ok counts out [] A ND HC LM) as E. cbn [length app] in E. change (pad []) with (repeat 0%Z MAX_DIMS) in E. rewrite E. cbn [bind].
  unfold vprefix, pad. rewrite app_length. replace (length out + _ <? length out) with false.
  - rewrite firstn_app, firstn_all, Nat.sub_diag, firstn_O, app_nil_r. reflexivity.
  - symmetry. apply Nat.ltb_ge. lia.
Qed.

(** the single-operand attempt to use a view *)
Lemma upd_spec {A} (l : list A) i v : i < length l -> exists l', vset l i v = Ok l' /\ length l' = length l /\
  forall j d, nth j l' d = if j =? i then v else nth j l d.
Proof.
  unfold vset. revert i. induction l as [|x l IH]; intros i L; [cbn [length] in L; lia|]. destruct i as [|i]; cbn [upd].
  - exists (v :: l). split; [reflexivity|]. split; [reflexivity|]. intros [|j] d; reflexivity.
  - destruct (IH i) as (l' & E & L' & H); [cbn [length] in L; lia|]. destruct (upd l i v) as [u|]; [|discriminate]. injection E as ->.
    exists (x :: l'). split; [reflexivity|]. split; [cbn [length]; congruence|]. intros [|j] d; [reflexivity|]. cbn [nth]. apply H.
Qed.

(** result of the loop: the lengths and total strides of the output labels *)
Lemma rse_go_ok dm labels out shape stride : NoDup out -> forall cs st idim nsh nst, length cs = length st ->
  (forall j c, nth_error cs j = Some c -> label_of labels (idim + j) = Ok c /\ c <> 0%Z) ->
  (forall j c, nth_error cs j = Some c -> vget shape (idim + j) = Ok (dm c)) ->
  (forall j s, nth_error st j = Some s -> vget stride (idim + j) = Ok s) ->
  length nsh = length out -> length nst = length out ->
  (exists c, In c cs /\ ~ In c out /\ rse_go labels out shape stride idim (length cs) nsh nst = Ok None) \/
  (incl cs out /\ exists nsh' nst', rse_go labels out shape stride idim (length cs) nsh nst = Ok (Some (nsh', nst')) /\
     length nsh' = length out /\ length nst' = length out /\
     forall k l, nth_error out k = Some l -> nth k nst' 0 = nth k nst 0 + lsum cs st l /\ nth k nsh' 0 = if existsb (Z.eqb l) cs then dm l else nth k nsh 0).
Proof.
  intros ND. induction cs as [|c cs IH]; intros st idim nsh nst LC HL HS HT LN LT; destruct st as [|s st]; try discriminate; cbn [length rse_go].
  - right. split; [intros x []|]. exists nsh, nst. split; [reflexivity|]. split; [assumption|]. split; [assumption|]. intros k l _. split; [cbn [lsum]; lia|reflexivity].
  - destruct (HL 0 c eq_refl) as [E0 NZ]. rewrite Nat.add_0_r in E0. rewrite E0. cbn [bind]. rewrite (proj2 (Z.eqb_neq _ _) NZ).
    destruct (position out c) as [ax|] eqn:P.
    + pose proof (HS 0 c eq_refl) as S0. rewrite Nat.add_0_r in S0. rewrite S0. cbn [bind].
      pose proof (position_lt _ _ _ P) as LA. destruct (position_Some _ _ _ P) as [PA _].
      destruct (upd_spec nsh ax (dm c)) as (nsh1 & -> & L1 & H1); [lia|]. cbn [bind].
      pose proof (HT 0 s eq_refl) as T0. rewrite Nat.add_0_r in T0. rewrite T0. cbn [bind].
      rewrite (vget_nth nst ax 0) by lia. cbn [bind]. destruct (upd_spec nst ax (nth ax nst 0 + s)) as (nst1 & -> & L2 & H2); [lia|]. cbn [bind].
      destruct (IH st (S idim) nsh1 nst1) as [(x & I & N & E)|(IN & nsh' & nst' & E & L3 & L4 & H)]; try congruence.
      * now injection LC.
      * intros j x H. rewrite Nat.add_succ_comm. now apply HL.
      * intros j x H. rewrite Nat.add_succ_comm. now apply HS.
      * intros j x H. rewrite Nat.add_succ_comm. now apply HT.
      * left. exists x. split; [now right|]. now split.
      * right. split. { intros x [<-|I]; [now apply nth_error_In with ax|auto]. }
        exists nsh', nst'. split; [exact E|]. split; auto. split; auto. intros k l K. destruct (H k l K) as [K1 K2]. rewrite K1, K2, H1, H2. cbn [lsum existsb].
        destruct (Nat.eqb_spec k ax) as [->|NE].
        -- assert (l = c) as -> by congruence. rewrite Z.eqb_refl. cbn [orb]. split; [lia|]. now destruct (existsb _ _).
        -- assert (l <> c). { intros ->. apply NE. apply (NoDup_nth_error out); auto; [apply nth_error_Some; congruence|congruence]. }
           rewrite (proj2 (Z.eqb_neq _ _) H0). cbn [orb]. split; [lia|reflexivity].
    + left. exists c. split; [now left|]. split; [now apply position_None|]. reflexivity.
Qed.

Lemma nth_error_ext {A} (l l' : list A) : (forall k, nth_error l k = nth_error l' k) -> l = l'.
Proof.
  revert l'. induction l as [|x l IH]; intros [|y l'] H; auto.
  - specialize (H 0). discriminate.
  - specialize (H 0). discriminate.
  - f_equal; [specialize (H 0); now injection H|]. apply IH. intros k. apply (H (S k)).
Qed.

Lemma reshape_for_einsum_ok dm a sub out : letters sub -> a_shape a = map dm sub -> length (a_stride a) = length sub ->
  NoDup out -> (forall l, In l out -> In l sub) ->
  (exists c, In c sub /\ ~ In c out /\ reshape_for_einsum a (pad (enc [] sub)) out = Ok None) \/
  (incl sub out /\ reshape_for_einsum a (pad (enc [] sub)) out = Ok (Some (map dm out, map (lsum sub (a_stride a)) out))).
Proof.
  intros A SH LS ND IO. unfold reshape_for_einsum. rewrite SH, map_length.
  destruct (rse_go_ok dm (pad (enc [] sub)) out (map dm sub) (a_stride a) ND sub (a_stride a) 0 (repeat 0 (length out)) (repeat 0 (length out))) as [(c & I & N & E)|(IN & nsh & nst & E & L1 & L2 & H)]; auto.
  - intros j c E. split; [now apply (decodes_enc sub _ A)|]. assert (0 < c)%Z; [|lia]. apply is_alpha_pos. apply (proj1 (Forall_forall _ _) A c). now apply nth_error_In with j.
  - intros j c E. apply vget_error. cbn [Nat.add]. now rewrite nth_error_map, E.
  - intros j s E. now apply vget_error.
  - apply repeat_length.
  - apply repeat_length.
  - left. eauto.
  - right. split; [exact IN|]. rewrite E. f_equal. f_equal.
    assert (Z0 : forall k, nth k (repeat 0 (length out)) 0 = 0).
    { intros k. destruct (Nat.lt_ge_cases k (length (repeat 0 (length out)))) as [L|G]; [|now apply nth_overflow].
      apply (repeat_spec (length out)). now apply nth_In. }
    f_equal; apply nth_error_ext; intros k; rewrite nth_error_map; destruct (nth_error out k) as [l|] eqn:K; cbn [option_map].
    + destruct (H k l K) as [_ K2]. assert (existsb (Z.eqb l) sub = true) as EX. { apply existsb_exists. exists l. split; [|apply Z.eqb_refl]. apply IO. now apply nth_error_In with k. }
      rewrite EX in K2. rewrite <- K2. apply nth_error_nth'. rewrite L1. apply nth_error_Some. congruence.
    + apply nth_error_None in K. apply nth_error_None. lia.
    + destruct (H k l K) as [K1 _]. rewrite Z0 in K1. cbn [Nat.add] in K1. rewrite <- K1. apply nth_error_nth'. rewrite L2. apply nth_error_Some. congruence.
    + apply nth_error_None in K. apply nth_error_None. lia.
Qed.

Lemma existsb_In l (L : list Z) : existsb (Z.eqb l) L = true <-> In l L.
Proof. rewrite existsb_exists. split; [intros (x & I & E); apply Z.eqb_eq in E; now subst|]. intros I. exists l. split; [auto|apply Z.eqb_refl]. Qed.

(** ** What acceptance implies, for subscripts without '.' *)
Lemma guard_inv {A} b (k : unit -> res A) y : (u <- guard b ;; k u) = Ok y -> b = true /\ k tt = Ok y.
Proof. destruct b; cbn [guard bind]; [auto|discriminate]. Qed.

Lemma parse_go_inv shape bd : forall cs i labels first counts dims r, ~ In DOT cs ->
  parse_go shape bd i cs labels first counts dims false false = Ok r ->
  exists labels' counts' dims', r = (labels', counts', dims', false, false) /\
    (forall c, counts c <= counts' c) /\ (forall c, 0 < counts c -> dims' c = dims c) /\
    (forall c, 0 < counts' c -> 0 < counts c \/ (In c cs /\ is_alpha c = true)) /\
    Forall (fun c => is_alpha c = true \/ c = SPACE) cs /\
    (forall j c, nth_error cs j = Some c -> is_alpha c = true -> 0 < counts' c /\ nth_error shape (i + j) = Some (dims' c)).
Proof.
  induction cs as [|c cs IH]; intros i labels first counts dims r ND E; cbn [parse_go] in E.
  - injection E as <-. exists labels, counts, dims. repeat split; auto; destruct j; discriminate.
  - assert (ND' : ~ In DOT cs) by (intros I; apply ND; now right). assert (NC : c <> DOT) by (intros ->; apply ND; now left).
    destruct (is_alpha c) eqn:A.
    + cbn [bind] in E. apply guard_inv in E as [_ E]. apply bind_Ok_inv in E as (labels1 & _ & E). apply bind_Ok_inv in E as (n & EN & E).
      assert (VN : nth_error shape i = Some n). { unfold vget in EN. destruct (nth_error shape i); [now injection EN as ->|discriminate]. }
      rewrite set_at_same in E. destruct (counts c + 1 =? 1) eqn:E1.
      * apply Nat.eqb_eq in E1. apply IH in E as (l' & c' & d' & -> & HC & HD & HP & HA & HN); [|exact ND'].
        exists l', c', d'. split; [reflexivity|].
        assert (PC : 0 < c' c). { specialize (HC c). rewrite set_at_same in HC. lia. }
        assert (DC : d' c = n). { rewrite HD; [apply set_at_same|]. rewrite set_at_same. lia. }
        split; [|split; [|split; [|split]]].
        -- intros x. specialize (HC x). destruct (Z.eq_dec x c) as [->|N]; [rewrite set_at_same in HC; lia|now rewrite set_at_other in HC by auto].
        -- intros x X. destruct (Z.eq_dec x c) as [->|N]; [lia|]. rewrite HD; [now rewrite set_at_other by auto|now rewrite set_at_other by auto].
        -- intros x X. destruct (HP x X) as [H|[H1 H2]]; [|right; split; auto; now right].
           destruct (Z.eq_dec x c) as [->|N]; [right; split; [now left|exact A]|]. rewrite set_at_other in H by auto. now left.
        -- constructor; auto.
        -- intros [|j] x X AX; cbn [nth_error] in X.
           ++ injection X as <-. rewrite Nat.add_0_r. split; [exact PC|]. now rewrite DC.
           ++ rewrite <- Nat.add_succ_comm. now apply HN.
      * apply Nat.eqb_neq in E1. apply guard_inv in E as [EQ E]. apply Nat.eqb_eq in EQ.
        apply IH in E as (l' & c' & d' & -> & HC & HD & HP & HA & HN); [|exact ND'].
        exists l', c', d'. split; [reflexivity|].
        assert (PC : 0 < c' c). { specialize (HC c). rewrite set_at_same in HC. lia. }
        assert (DC : d' c = n). { rewrite HD; [exact EQ|]. rewrite set_at_same. lia. }
        split; [|split; [|split; [|split]]].
        -- intros x. specialize (HC x). destruct (Z.eq_dec x c) as [->|N]; [rewrite set_at_same in HC; lia|now rewrite set_at_other in HC by auto].
        -- intros x X. apply HD. destruct (Z.eq_dec x c) as [->|N]; [rewrite set_at_same; lia|now rewrite set_at_other by auto].
        -- intros x X. destruct (HP x X) as [H|[H1 H2]]; [|right; split; auto; now right].
           destruct (Z.eq_dec x c) as [->|N]; [right; split; [now left|exact A]|]. rewrite set_at_other in H by auto. now left.
        -- constructor; auto.
        -- intros [|j] x X AX; cbn [nth_error] in X.
           ++ injection X as <-. rewrite Nat.add_0_r. split; [exact PC|]. now rewrite DC.
           ++ rewrite <- Nat.add_succ_comm. now apply HN.
    + rewrite (proj2 (Z.eqb_neq _ _) NC) in E. apply guard_inv in E as [ES E]. apply Z.eqb_eq in ES. subst c.
      apply IH in E as (l' & c' & d' & -> & HC & HD & HP & HA & HN); [|exact ND']. exists l', c', d'. split; [reflexivity|].
      split; [exact HC|]. split; [exact HD|]. split; [|split].
      * intros x X. destruct (HP x X) as [H|[H1 H2]]; auto. right. split; auto. now right.
      * constructor; auto.
      * intros [|j] x X AX; cbn [nth_error] in X; [injection X as <-; congruence|]. rewrite <- Nat.add_succ_comm. now apply HN.
Qed.

Lemma parse_operand_inv cs shape counts dims r : ~ In DOT cs -> parse_operand cs shape counts dims = Ok r ->
  exists labels' counts' dims', r = (labels', counts', dims', 0) /\ length (filter is_alpha cs) = length shape /\
    (forall c, counts c <= counts' c) /\ (forall c, 0 < counts c -> dims' c = dims c) /\
    (forall c, 0 < counts' c -> 0 < counts c \/ (In c cs /\ is_alpha c = true)) /\
    (forall j c, nth_error cs j = Some c -> is_alpha c = true -> 0 < counts' c /\ nth_error shape j = Some (dims' c)).
Proof.
  intros ND E. unfold parse_operand in E. apply guard_inv in E as [_ E]. destruct (length shape <? _) eqn:L; [discriminate|]. apply Nat.ltb_ge in L.
  apply bind_Ok_inv in E as (r1 & E1 & E). apply parse_go_inv in E1 as (l' & c' & d' & -> & HC & HD & HP & HA & HN); [|exact ND].
  cbn [negb guard bind orb] in E. apply guard_inv in E as [EB E]. apply Nat.eqb_eq in EB. rewrite EB in E. injection E as <-.
  exists l', c', d'. split; [reflexivity|]. split; [|auto]. replace (filter is_alpha cs) with (filter is_alnum cs); [lia|].
  clear - HA. induction HA as [|c cs H F IH]; [reflexivity|]. cbn [filter]. destruct H as [H| ->].
  - assert (HN : is_alnum c = true) by (unfold is_alnum; now rewrite H). rewrite H, HN. now rewrite IH.
  - cbn. exact IH.
Qed.

Lemma parse_out_go_inv bd counts : forall cs i labels r, ~ In DOT cs -> parse_out_go bd i cs labels counts false false = Ok r ->
  Forall (fun c => is_alpha c = true \/ c = SPACE) cs /\ (forall c, In c cs -> is_alpha c = true -> 0 < counts c) /\
  (forall j k c, j < k -> nth_error cs j = Some c -> nth_error cs k = Some c -> is_alpha c = false).
Proof.
  induction cs as [|c cs IH]; intros i labels r ND E; cbn [parse_out_go] in E.
  - split; [constructor|]. split; [intros c []|]. intros [|j]; discriminate.
  - assert (ND' : ~ In DOT cs) by (intros I; apply ND; now right). assert (NC : c <> DOT) by (intros ->; apply ND; now left).
    destruct (is_alpha c) eqn:A.
    + apply guard_inv in E as [C0 E]. apply guard_inv in E as [C1 E]. cbn [bind] in E. apply bind_Ok_inv in E as (l1 & _ & E).
      apply IH in E as (F & HC & HN); [|exact ND']. split; [constructor; auto|]. split.
      * intros x [<-|I] AX; auto. apply negb_true_iff, Nat.eqb_neq in C0. lia.
      * intros [|j] [|k] x L J K; cbn [nth_error] in J, K; try lia.
        -- injection J as <-. apply nth_error_In in K. apply negb_true_iff in C1. assert (existsb (Z.eqb c) cs = true); [|congruence]. now apply existsb_In.
        -- apply (HN j k); auto. lia.
    + rewrite (proj2 (Z.eqb_neq _ _) NC) in E. apply guard_inv in E as [ES E]. apply Z.eqb_eq in ES. subst c.
      apply IH in E as (F & HC & HN); [|exact ND']. split; [constructor; auto|]. split.
      * intros x [<-|I] AX; [discriminate|auto].
      * intros [|j] [|k] x L J K; cbn [nth_error] in J, K; try lia; [now injection J as <-|]. apply (HN j k); auto. lia.
Qed.


(** ** einsum_view *)
Lemma letter_alpha c : letter c <-> is_alpha c = true.
Proof. unfold letter, is_alpha. rewrite orb_true_iff, !andb_true_iff, !Z.leb_le. tauto. Qed.
Lemma letter_letters s : Forall letter s -> letters s.
Proof. apply Forall_impl. intros c. apply letter_alpha. Qed.
Lemma letters_no_dot s : letters s -> ~ In DOT s.
Proof. intros L I. apply (proj1 (Forall_forall _ _) L) in I. discriminate. Qed.

Lemma einsum_view_ok dm a sub out : letters sub -> letters out -> NoDup out -> incl out sub -> a_shape a = map dm sub ->
  length (a_stride a) = length sub -> length sub <= MAX_DIMS ->
  (exists c, In c sub /\ ~ In c out /\ einsum_view a sub out = Ok None) \/
  (incl sub out /\ einsum_view a sub out = Ok (Some (reshaped_view ByRef a (map dm out) (map (lsum sub (a_stride a)) out)))).
Proof.
  intros LS LO ND IO SH LT LM. unfold einsum_view.
  destruct (parse_operand_ok dm sub (a_shape a) (fun _ => 0) (fun _ => 0) LS SH) as (c1 & d1 & -> & HC & _); [rewrite SH, map_length; exact LM|lia|].
  cbn [bind]. rewrite (parse_output_ok c1 out LO ND); [| |].
  - cbn [bind]. destruct (reshape_for_einsum_ok dm a sub out LS SH LT ND IO) as [(c & I & N & ->)|(I & ->)]; [left; eauto|right; auto].
  - intros c I E. apply HC in E as [_ E]. apply E, IO, I.
  - pose proof (NoDup_incl_length ND IO). lia.
Qed.

Lemma parse_go_len shape bd : forall cs i labels first counts dims r, letters cs -> i <= length labels ->
  parse_go shape bd i cs labels first counts dims false false = Ok r -> i + length cs <= length labels.
Proof.
  induction cs as [|c cs IH]; intros i labels first counts dims r L LI E; [cbn [length]; lia|].
  apply Forall_cons_iff in L as [A L]. cbn [parse_go] in E. rewrite A in E. cbn [bind] in E. apply guard_inv in E as [_ E].
  apply bind_Ok_inv in E as (l1 & E1 & E). apply bind_Ok_inv in E as (n & _ & E).
  assert (Q : i < length labels /\ length l1 = length labels).
  { unfold vset in E1. destruct (upd labels i _) eqn:U; [|discriminate]. injection E1 as ->. revert U. clear. generalize (match first c with None => c | Some f => (Z.of_nat f - Z.of_nat i)%Z end). intros v. revert i l1.
    induction labels as [|x labels IH]; intros [|i] l1 U; cbn in U; try discriminate; [injection U as <-; cbn; lia|].
    destruct (upd labels i v) eqn:U'; [|discriminate]. injection U as <-. apply IH in U'. cbn. lia. }
  cbn [length]. destruct Q as [Q1 Q2]. rewrite <- Q2. rewrite <- Nat.add_succ_comm.
  destruct (set_at counts c (counts c + 1) c =? 1); [|apply guard_inv in E as [_ E]]; eapply IH; eauto; lia.
Qed.

Lemma einsum_view_inv a sub out o : letters sub -> letters out -> einsum_view a sub out = Ok o ->
  length sub <= MAX_DIMS /\ NoDup out /\ incl out sub /\ exists dm, a_shape a = map dm sub.
Proof.
  intros LS LO E. unfold einsum_view in E. apply bind_Ok_inv in E as (r & E1 & E).
  assert (LM : length sub <= MAX_DIMS).
  { unfold parse_operand in E1. apply guard_inv in E1 as [_ E1]. destruct (_ <? _); [discriminate|]. apply bind_Ok_inv in E1 as (r1 & E1 & _).
    apply parse_go_len in E1; [|exact LS|lia]. now rewrite repeat_length in E1. }
  apply parse_operand_inv in E1 as (l1 & c1 & d1 & -> & LA & HC & HD & HP & HN); [|now apply letters_no_dot].
  apply bind_Ok_inv in E as (outl & EO & _). unfold parse_output in EO. apply guard_inv in EO as [_ EO]. apply bind_Ok_inv in EO as (ro & EO & _).
  apply parse_out_go_inv in EO as (_ & HO & HU); [|now apply letters_no_dot].
  assert (AL : forall l c, letters l -> In c l -> is_alpha c = true) by (intros l c H I; now apply (proj1 (Forall_forall _ _) H)).
  split; [exact LM|]. split; [|split].
  - apply NoDup_nth_error. intros i j Li E. destruct (nth_error out i) as [c|] eqn:Ei; [|apply nth_error_None in Ei; lia].
    pose proof (AL out c LO (nth_error_In _ _ Ei)) as A.
    destruct (Nat.lt_trichotomy i j) as [H|[H|H]]; [|exact H|]; exfalso; [rewrite (HU i j c) in A|rewrite (HU j i c) in A]; auto; discriminate.
  - intros c I. destruct (HP c (HO c I (AL _ _ LO I))) as [H|[H _]]; [lia|exact H].
  - exists d1. apply nth_error_ext. intros k. rewrite nth_error_map. destruct (nth_error sub k) as [c|] eqn:K; cbn [option_map].
    + apply HN; [exact K|]. apply (AL sub); [exact LS|]. now apply nth_error_In with k.
    + apply nth_error_None. apply nth_error_None in K. rewrite <- LA. revert K.
      replace (filter is_alpha sub) with sub; [auto|]. clear -LS. induction LS as [|c s H F IH]; cbn [filter]; [reflexivity|]. rewrite H. now f_equal.
Qed.

Lemma einsum_view_views dm a sub out : NoDup out -> incl sub out -> a_shape a = map dm sub -> length (a_stride a) = length sub ->
  views (reshaped_view ByRef a (map dm out) (map (lsum sub (a_stride a)) out)) a (fun idx => map (lookup out idx) sub).
Proof.
  intros ND I SH LT. apply reshaped_view_views; [now rewrite !map_length|]. intros idx R. rewrite SH. split; [now apply in_range_lookup|].
  rewrite <- (dot_lsum (lookup out idx) out ND sub (a_stride a) (eq_sym LT) I). rewrite map_lookup; auto.
  apply in_range_length in R. now rewrite map_length in R.
Qed.
