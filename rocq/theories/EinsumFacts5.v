(** EinsumFacts5.v: parsing of subscripts and preparation of an einsum. *)
From Coq Require Import List Arith Lia Bool ZArith Permutation.
From Verif Require Import Base Spec Layout SpecFacts LayoutFacts Views ViewsFacts Kernels Access HeapFacts ReduceFacts Reduce Einsum EinsumFacts EinsumFacts2 EinsumFacts3 EinsumFacts4.
Import ListNotations.
Open Scope res_scope.

Lemma parse_all_ok dm subs : forall ops counts dims, Forall2 (fun sub a => letters sub /\ a_shape a = map dm sub /\ length sub <= MAX_DIMS) subs ops ->
  (forall c, 0 < counts c -> dims c = dm c) ->
  exists counts' dims', parse_all subs ops counts dims 0 = Ok (map (fun s => pad (enc [] s)) subs, counts', dims', 0) /\
    (forall c, counts' c = 0 <-> counts c = 0 /\ forall s, In s subs -> ~ In c s) /\ (forall c, 0 < counts' c -> dims' c = dm c).
Proof.
  induction subs as [|sub subs IH]; intros ops counts dims F HD; inversion F as [|? a ? ops' (A & SH & LM) F']; subst; cbn [parse_all map].
  - exists counts, dims. split; [reflexivity|]. split; [|exact HD]. intros c. split; [intros H; split; auto|tauto].
  - destruct (parse_operand_ok dm sub (a_shape a) counts dims A SH) as (c1 & d1 & -> & HC1 & HD1); [now rewrite SH, map_length|exact HD|]. cbn [bind Nat.max].
    destruct (IH ops' c1 d1 F' HD1) as (c2 & d2 & -> & HC2 & HD2). cbn [bind]. exists c2, d2. split; [reflexivity|]. split; [|exact HD2].
    intros c. rewrite HC2, HC1. split.
    + intros [[H1 H2] H3]. split; auto. intros s [<-|I]; auto.
    + intros [H1 H2]. split; [split; auto|]. { apply H2. now left. } intros s I. apply H2. now right.
Qed.

Lemma extra_labels_ok counts out : forall ls n, NoDup ls ->
  (let E := filter (fun l => negb (counts l =? 0) && negb (existsb (Z.eqb l) out)) ls in
   extra_labels counts out ls n = if length E <=? MAX_DIMS - n then Ok E else Panic).
Proof.
  induction ls as [|l ls IH]; intros n ND; cbn [filter extra_labels]; [reflexivity|]. apply NoDup_cons_iff in ND as [_ ND].
  destruct (counts l =? 0); cbn [negb orb andb]; [apply IH; auto|].
  destruct (existsb (Z.eqb l) out); cbn [negb orb andb]; [apply IH; auto|].
  cbn [length]. destruct (MAX_DIMS <=? n) eqn:EM.
  - apply Nat.leb_le in EM. replace (MAX_DIMS - n) with 0 by lia. reflexivity.
  - apply Nat.leb_gt in EM. rewrite IH by auto. replace (MAX_DIMS - n) with (S (MAX_DIMS - S n)) by lia. cbn [Nat.leb].
    destruct (_ <=? _); reflexivity.
Qed.

Lemma all_strides_ok dm iter : Forall (fun l => l <> 0%Z) iter -> forall subs ops,
  Forall2 (fun sub a => letters sub /\ a_shape a = map dm sub /\ length (a_stride a) = length sub /\ length sub <= MAX_DIMS) subs ops ->
  all_strides ops (map (fun s => pad (enc [] s)) subs) iter = Ok (map (fun p => map (lsum (fst p) (a_stride (snd p))) iter) (combine subs ops)).
Proof.
  intros NZ. induction 1 as [|sub a subs ops (A & SH & LS & LM) F IH]; [reflexivity|]. cbn [map all_strides combine fst snd].
  destruct (reshape_operand_ok dm a sub A SH LS LM) as (labels & st & dec & -> & LD & LL & D & HS). cbn [bind].
  rewrite (operand_strides_ok labels st dec iter LD LL D NZ). cbn [bind]. rewrite IH. cbn [bind]. f_equal. f_equal. apply map_ext. exact HS.
Qed.

(** ** Preparation *)
Definition summed (subs : list (list Z)) (out : list Z) : list Z :=
  filter (fun l => existsb (existsb (Z.eqb l)) subs && negb (existsb (Z.eqb l) out)) (map Z.of_nat (seq 0 128)).

Lemma summed_spec subs out l : Forall letters subs -> In l (summed subs out) <-> (exists s, In s subs /\ In l s) /\ ~ In l out.
Proof.
  intros A. unfold summed. rewrite filter_In, andb_true_iff, negb_true_iff, <- not_true_iff_false, existsb_In.
  assert (E : existsb (existsb (Z.eqb l)) subs = true <-> exists s, In s subs /\ In l s).
  { rewrite existsb_exists. split; intros (s & I & J); exists s; split; auto; now apply existsb_In. }
  rewrite E. split; [tauto|]. intros [(s & I & J) N]. repeat split; eauto. apply in_map_iff. exists (Z.to_nat l).
  pose proof (proj1 (Forall_forall _ _) A s I) as AS. pose proof (is_alpha_pos l (proj1 (Forall_forall _ _) AS l J)). rewrite in_seq. lia.
Qed.

Lemma NoDup_summed subs out : NoDup (summed subs out).
Proof. unfold summed. apply NoDup_filter. apply FinFun.Injective_map_NoDup; [intros x y; lia|apply seq_NoDup]. Qed.

Lemma map_nth_seq_id {A} (L : list A) d : map (fun j => nth j L d) (seq 0 (length L)) = L.
Proof. induction L as [|x L IH]; [reflexivity|]. cbn [length seq map nth]. f_equal. rewrite <- seq_shift, map_map. exact IH. Qed.

Lemma map_nth_perm {A} (L : list A) d ord : Permutation (seq 0 (length L)) ord -> Permutation L (map (fun j => nth j L d) ord).
Proof.
  intros P. rewrite <- (map_nth_seq_id L d) at 1. now apply Permutation_map.
Qed.

Lemma lsum_self out st : NoDup out -> length st = length out -> map (lsum out st) out = st.
Proof.
  revert st. induction out as [|c out IH]; intros [|s st] ND E; try discriminate; [reflexivity|]. apply NoDup_cons_iff in ND as [NI ND].
  cbn [map]. f_equal.
  - cbn [lsum]. rewrite Z.eqb_refl, lsum_notin by auto. lia.
  - rewrite <- (IH st ND) at 2 by now injection E. apply map_ext_in. intros l I. cbn [lsum]. destruct (Z.eqb_spec l c); [subst; contradiction|reflexivity].
Qed.
Lemma lsum_others out st ls : (forall l, In l ls -> ~ In l out) -> map (lsum out st) ls = repeat 0 (length ls).
Proof.
  induction ls as [|l ls IH]; intros H; [reflexivity|]. cbn [map length repeat]. rewrite lsum_notin by (apply H; now left). f_equal. apply IH.
  intros x I. apply H. now right.
Qed.

(** strides of all operands and of the output for one label *)
Definition row_of (Q : list (list Z * list nat)) (l : Z) : list nat := map (fun q => lsum (fst q) (snd q) l) Q.

Lemma permute_map {A} (f : Z -> A) L ord : Permutation (seq 0 (length L)) ord ->
  permute_array (map f L) ord = Ok (map f (map (fun j => nth j L 0%Z) ord)).
Proof.
  intros P. rewrite (permute_array_ok (f 0%Z) (map f L) ord).
  - f_equal. rewrite map_map. apply map_ext_in. intros j I. now rewrite map_nth.
  - rewrite map_length. rewrite <- (Permutation_length P). now rewrite seq_length.
  - apply Forall_forall. intros j I. rewrite map_length. apply Permutation_sym in P. apply (Permutation_in _ P) in I. apply in_seq in I. lia.
Qed.

Definition fits (dm : Z -> nat) (sub : list Z) (a : arr) : Prop :=
  letters sub /\ a_shape a = map dm sub /\ length (a_stride a) = length sub /\ length sub <= MAX_DIMS.

Lemma prepare_ok dm subs ops out :
  Forall2 (fits dm) subs ops -> letters out -> NoDup out -> (forall l, In l out -> exists s, In s subs /\ In l s) ->
  length ops < MAX_ARGS -> length out + length (summed subs out) <= MAX_DIMS ->
  exists L, Permutation (out ++ summed subs out) L /\
    prepare_einsum ops subs out = Ok (map (row_of (combine subs (map a_stride ops) ++ [(out, rm_stride (map dm out))])) L, map dm L, map dm out).
Proof.
  intros F AO ND IO LA LM. unfold prepare_einsum. rewrite (proj2 (Nat.ltb_lt _ _) LA). cbn [guard bind].
  assert (AS : Forall letters subs). { clear - F. induction F as [|s a subs ops (A & _) F IH]; constructor; auto. }
  assert (LSO : length subs = length ops) by now apply Forall2_length in F.
  destruct (parse_all_ok dm subs ops (fun _ => 0) (fun _ => 0)) as (counts & dims & E & HC & HD).
  { clear - F. induction F as [|s a subs ops (A & B & _ & C) F IH]; constructor; auto. }
  { lia. }
  rewrite E. cbn [bind]. rewrite map_length, LSO, Nat.sub_diag. cbn [repeat]. rewrite app_nil_r.
  assert (CN : forall c s, In s subs -> In c s -> counts c <> 0).
  { intros c s I J Z0. apply HC in Z0 as [_ Z0]. now apply (Z0 s I). }
  rewrite (parse_output_ok counts out AO ND).
  2: { intros c I. destruct (IO c I) as (s & I1 & I2). eauto. }
  2: lia.
  cbn [bind].
  assert (ER : match ops, map (fun s => pad (enc [] s)) subs with
       | [a], l :: _ => _ <- reshape_for_einsum a l out ;; Ok tt
       | _, _ => Ok tt
       end = Ok tt).
  { destruct ops as [|a [|? ?]]; auto. destruct subs as [|s [|? ?]]; auto; try discriminate. cbn [map]. inversion F as [|? ? ? ? (A & B & C & D) _]; subst.
    destruct (reshape_for_einsum_ok dm a s out A B C ND) as [(c & _ & _ & ->)|(_ & ->)]; auto.
    intros l I. destruct (IO l I) as (s' & [<-|[]] & J). exact J. }
  rewrite ER. cbn [bind]. clear ER.
  assert (EX : filter (fun l => negb (counts l =? 0) && negb (existsb (Z.eqb l) out)) (map Z.of_nat (seq 0 128)) = summed subs out).
  { unfold summed. apply filter_ext. intros l. f_equal. apply eq_true_iff_eq. rewrite negb_true_iff, Nat.eqb_neq.
    rewrite existsb_exists. split.
    - intros NZ. destruct (existsb (existsb (Z.eqb l)) subs) eqn:EB.
      + apply existsb_exists in EB. exact EB.
      + exfalso. apply NZ. apply HC. split; [reflexivity|]. intros s I J. apply not_true_iff_false in EB. apply EB. apply existsb_exists. exists s. split; [auto|]. now apply existsb_In.
    - intros (s & I & J). apply CN with s; auto. now apply existsb_In. }
  rewrite extra_labels_ok.
  2: { apply FinFun.Injective_map_NoDup; [intros x y; lia|apply seq_NoDup]. }
  rewrite EX. rewrite (proj2 (Nat.leb_le _ _)) by lia. cbn [bind].
  set (iter := out ++ summed subs out) in *.
  assert (II : forall l, In l iter -> exists s, In s subs /\ In l s).
  { intros l I. apply in_app_or in I as [I|I]; auto. apply summed_spec in I as [I _]; auto. }
  assert (DD : forall l, In l iter -> dims l = dm l).
  { intros l I. destruct (II l I) as (s & I1 & I2). apply HD. pose proof (CN l s I1 I2). lia. }
  rewrite (all_strides_ok dm).
  2: { apply Forall_forall. intros l I. destruct (II l I) as (s & I1 & I2). pose proof (proj1 (Forall_forall _ _) AS s I1) as A.
       pose proof (is_alpha_pos l (proj1 (Forall_forall _ _) A l I2)). lia. }
  2: exact F.
  cbn [bind].
  rewrite (map_ext_in dims dm out) by (intros l I; apply DD; apply in_or_app; now left).
  rewrite (map_ext_in dims dm iter) by exact DD.
  set (Q := combine subs (map a_stride ops) ++ [(out, rm_stride (map dm out))]).
  assert (ET : map (fun p => map (lsum (fst p) (a_stride (snd p))) iter) (combine subs ops) ++ [stride_from_shape (map dm out) ++ repeat 0 (length (summed subs out))] =
               map (fun q => map (lsum (fst q) (snd q)) iter) Q).
  { unfold Q. rewrite map_app. f_equal.
    - generalize iter. clear. intros iter. revert ops. induction subs as [|s subs IH]; intros [|a ops]; cbn [combine map]; auto. f_equal. apply IH.
    - cbn [map fst snd]. f_equal. unfold iter. rewrite map_app, lsum_self, lsum_others.
      + now rewrite stride_from_shape_rm.
      + intros l I. apply summed_spec in I as [_ I]; auto.
      + exact ND.
      + now rewrite rm_stride_length, map_length. }
  rewrite ET.
  replace (map _ (seq 0 (length iter))) with (map (row_of Q) iter).
  2: { rewrite <- (map_nth_seq_id iter 0%Z) at 1. rewrite map_map. apply map_ext_in. intros i I. apply in_seq in I. unfold row_of. rewrite map_map. apply map_ext. intros q.
       rewrite (nth_indep _ 0 (lsum (fst q) (snd q) 0%Z)) by (rewrite map_length; lia). now rewrite map_nth. }
  destruct (find_best_axis_ordering_ok (length iter) (map (row_of Q) iter)) as (o & EO & HO).
  { unfold iter. rewrite app_length. exact LM. }
  { now rewrite map_length. }
  rewrite EO. cbn [bind]. destruct o as [ord|].
  - exists (map (fun j => nth j iter 0%Z) ord). split; [now apply map_nth_perm|]. now rewrite !permute_map by auto.
  - exists iter. split; [apply Permutation_refl|reflexivity].
Qed.
