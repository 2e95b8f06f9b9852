(** EinsumFacts4.v: labels as loop variables; preparation of an einsum over letters. *)
From Coq Require Import List Arith Lia Bool ZArith Permutation.
From Verif Require Import Base Spec Layout SpecFacts LayoutFacts Views ViewsFacts Kernels Access HeapFacts ReduceFacts Reduce Einsum EinsumFacts EinsumFacts2 EinsumFacts3.
From Verif Require Export EinsumParse.
Import ListNotations.
Open Scope res_scope.

(** ** Renaming of loop variables *)
Lemma flat_map_swap2 {A B C} (f : A -> B -> list C) As Bs :
  Permutation (flat_map (fun a => flat_map (f a) Bs) As) (flat_map (fun b => flat_map (fun a => f a b) As) Bs).
Proof.
  induction As as [|a As IH]; cbn [flat_map].
  - induction Bs; cbn [flat_map app]; auto.
  - eapply Permutation_trans; [apply Permutation_app_head; exact IH|]. clear IH. induction Bs as [|b Bs IH]; cbn [flat_map]; [constructor|].
    rewrite <- !app_assoc. apply Permutation_app_head. eapply Permutation_trans; [|apply Permutation_app_head; exact IH].
    rewrite !app_assoc. apply Permutation_app_tail. apply Permutation_app_comm.
Qed.

Lemma env_cons {C} (d : Z -> nat) x L (G : (Z -> nat) -> C) :
  map (fun idx => G (lookup (x :: L) idx)) (indices (map d (x :: L))) =
  flat_map (fun i => map (fun idx => G (fun l => if (x =? l)%Z then i else lookup L idx l)) (indices (map d L))) (seq 0 (d x)).
Proof. cbn [map indices]. rewrite flat_map_map. apply flat_map_ext. intros i. now rewrite map_map. Qed.

Lemma env_perm {C} (d : Z -> nat) L L' : Permutation L L' -> NoDup L -> forall G : (Z -> nat) -> C,
  (forall e1 e2, (forall l, In l L -> e1 l = e2 l) -> G e1 = G e2) ->
  Permutation (map (fun idx => G (lookup L idx)) (indices (map d L))) (map (fun idx => G (lookup L' idx)) (indices (map d L'))).
Proof.
  induction 1 as [|x L L' P IH|x y L|L1 L2 L3 P1 IH1 P2 IH2]; intros ND G X.
  - apply Permutation_refl.
  - rewrite !env_cons. apply perm_flat_map_ext. intros i _. inversion ND as [|? ? N ND']; subst.
    apply (IH ND' (fun e => G (fun l => if (x =? l)%Z then i else e l))). intros e1 e2 E. apply X. intros l [<-|I].
    + now rewrite Z.eqb_refl.
    + now rewrite E.
  - assert (NE : x <> y). { inversion ND as [|? ? N _]; subst. intros ->. apply N. now left. }
    assert (E : forall u v i, map (fun idx => G (fun l => if (u =? l)%Z then i else lookup (v :: L) idx l)) (indices (map d (v :: L))) =
              flat_map (fun j => map (fun idx => G (fun l => if (u =? l)%Z then i else if (v =? l)%Z then j else lookup L idx l)) (indices (map d L))) (seq 0 (d v))).
    { intros u v i. apply (env_cons d v L (fun e => G (fun l => if (u =? l)%Z then i else e l))). }
    rewrite !env_cons.
    rewrite (flat_map_ext _ _ (fun i => E y x i)). rewrite (flat_map_ext _ _ (fun i => E x y i)).
    eapply Permutation_trans; [apply flat_map_swap2|]. apply perm_flat_map_ext. intros i _. apply perm_flat_map_ext. intros j _.
    erewrite map_ext; [apply Permutation_refl|]. intros idx. apply X. intros l _.
    destruct (Z.eqb_spec y l); destruct (Z.eqb_spec x l); congruence.
  - eapply Permutation_trans; [apply (IH1 ND G X)|]. apply IH2.
    + now apply (Permutation_NoDup P1).
    + intros e1 e2 E. apply X. intros l I. apply E. now apply (Permutation_in _ P1).
Qed.

Lemma stride_sum_ok labels stride label : forall dec st index acc, length dec = length st ->
  (forall j c, nth_error dec j = Some c -> label_of labels (index + j) = Ok c) ->
  (forall j s, nth_error st j = Some s -> vget stride (index + j) = Ok s) ->
  stride_sum labels stride label index (length dec) acc = Ok (acc + lsum dec st label).
Proof.
  induction dec as [|c dec IH]; intros st index acc E HD HS; destruct st as [|s st]; try discriminate; cbn [length stride_sum lsum].
  - f_equal. lia.
  - pose proof (HD 0 c eq_refl) as H0. rewrite Nat.add_0_r in H0. rewrite H0. cbn [bind].
    pose proof (HS 0 s eq_refl) as S0. rewrite Nat.add_0_r in S0.
    assert (N : forall acc', stride_sum labels stride label (S index) (length dec) acc' = Ok (acc' + lsum dec st label)).
    { intros acc'. apply IH; [now injection E| |]; intros j x H; rewrite Nat.add_succ_comm; [apply HD|apply HS]; exact H. }
    destruct (label =? c)%Z; [rewrite S0|]; cbn [bind]; rewrite N; f_equal; lia.
Qed.

Lemma operand_strides_ok labels stride dec iter : length dec = length stride -> length stride <= length labels -> decodes labels dec ->
  Forall (fun l => l <> 0%Z) iter -> operand_strides labels stride iter = Ok (map (lsum dec stride) iter).
Proof.
  intros E L D F. unfold operand_strides. apply mapM_pure_ext. intros l I.
  pose proof (proj1 (Forall_forall _ _) F l I) as NZ. cbv beta in NZ. rewrite (proj2 (Z.eqb_neq _ _) NZ).
  rewrite Nat.min_l by exact L. rewrite <- E. rewrite (stride_sum_ok labels stride l dec stride 0 0 E); [reflexivity|exact D|].
  intros j s H. now apply vget_error.
Qed.

(** ** Merging of repeated labels *)
Inductive relf : nat -> list (option nat) -> list Z -> list Z -> Prop :=
| relf_nil k : relf k [] [] []
| relf_some k cm c es N : relf (S k) cm es N -> relf k (Some k :: cm) (c :: es) (c :: N)
| relf_none k cm e es N : relf k cm es N -> relf k (None :: cm) (e :: es) N.

Lemma relf_snoc_some k cm es N c : relf k cm es N -> relf k (cm ++ [Some (k + length N)]) (es ++ [c]) (N ++ [c]).
Proof.
  induction 1 as [k|k cm c' es N R IH|k cm e es N R IH]; cbn [app length].
  - rewrite Nat.add_0_r. constructor. constructor.
  - rewrite <- Nat.add_succ_comm. now constructor.
  - now constructor.
Qed.
Lemma relf_snoc_none k cm es N e : relf k cm es N -> relf k (cm ++ [None]) (es ++ [e]) N.
Proof. induction 1; cbn [app]; constructor; auto. constructor. Qed.

Lemma relabel_go_ok k cm es N : relf k cm es N -> forall done old tail, length done = k ->
  exists rest, relabel_go cm (length (done ++ old)) (done ++ old ++ es ++ tail) = Ok (done ++ N ++ rest) /\
    length (done ++ N ++ rest) = length (done ++ old ++ es ++ tail).
Proof.
  induction 1 as [k|k cm c es N R IH|k cm e es N R IH]; intros done old tail LD; cbn [relabel_go].
  - exists (old ++ tail). now split.
  - assert (G : vget (done ++ old ++ (c :: es) ++ tail) (length (done ++ old)) = Ok c).
    { rewrite app_assoc. cbn [app]. now apply vget_mid. }
    rewrite G. cbn [bind]. destruct old as [|o old].
    + rewrite app_nil_r. cbn [app]. rewrite vset_mid by auto. cbn [bind].
      destruct (IH (done ++ [c]) [] tail) as (rest & E & L). { rewrite app_length. cbn [length]. lia. }
      exists rest. rewrite app_nil_r in E. cbn [app] in E, L. repeat rewrite <- app_assoc in E; repeat rewrite <- app_assoc in L. cbn [app] in E, L. rewrite app_length in E. cbn [length] in E.
      rewrite Nat.add_1_r in E. split; [exact E|exact L].
    + cbn [app]. rewrite vset_mid by auto. cbn [bind].
      destruct (IH (done ++ [c]) (old ++ [c]) tail) as (rest & E & L). { rewrite app_length. cbn [length]. lia. }
      exists rest. repeat rewrite <- app_assoc in E; repeat rewrite <- app_assoc in L. cbn [app] in E, L. split.
      * rewrite <- E. f_equal. rewrite !app_length. cbn [length]. rewrite app_length. cbn [length]. lia.
      * rewrite L. rewrite !app_length. cbn [length]. rewrite !app_length. cbn [length]. lia.
  - destruct (IH done (old ++ [e]) tail LD) as (rest & E & L). exists rest. repeat rewrite <- app_assoc in E; repeat rewrite <- app_assoc in L. cbn [app] in E, L.
    split; [|exact L]. cbn [app]. rewrite <- E. f_equal. rewrite !app_length. cbn [length]. lia.
Qed.

Lemma In_position l c : In c l -> exists k, position l c = Some k.
Proof. intros I. destruct (position l c) as [k|] eqn:E; [now exists k|]. now apply position_None in E. Qed.

Lemma lsum_upd N : forall st i c s, NoDup N -> length st = length N -> nth_error N i = Some c ->
  exists old, vget st i = Ok old /\ exists st', vset st i (old + s) = Ok st' /\ length st' = length N /\
    forall l, lsum N st' l = lsum N st l + (if (l =? c)%Z then s else 0).
Proof.
  induction N as [|x N IH]; intros st i c s ND L E; destruct i as [|i]; try discriminate; destruct st as [|t st]; try discriminate.
  - injection E as ->. exists t. split; [reflexivity|]. exists (t + s :: st). split; [reflexivity|]. split; [exact L|].
    intros l. cbn [lsum]. destruct (l =? c)%Z; lia.
  - cbn [nth_error] in E. apply NoDup_cons_iff in ND as [_ ND]. injection L as L. destruct (IH st i c s ND L E) as (old & G & st' & S & L' & H).
    exists old. split; [exact G|]. exists (t :: st'). split.
    + unfold vset in *. cbn [upd]. destruct (upd st i (old + s)); [|discriminate]. now injection S as ->.
    + split; [cbn [length]; congruence|]. intros l. cbn [lsum]. rewrite H. lia.
Qed.

Lemma merge_go_ok dm sub stride tail : letters sub -> length sub = length stride ->
  forall cs pre cmap N nst, sub = pre ++ cs -> relf 0 cmap (enc [] pre) N -> length nst = length N -> NoDup N ->
  (forall c, In c N <-> In c pre) ->
  (forall j c, nth_error pre j = Some c -> position (firstn j pre) c = None -> exists i, nth_error cmap j = Some (Some i) /\ nth_error N i = Some c) ->
  (forall l, lsum N nst l = lsum pre (firstn (length pre) stride) l) ->
  exists cmap' N' nst', merge_go (enc [] sub ++ tail) (map dm sub) stride (length pre) (length cs) cmap (map dm N) nst = Ok (cmap', map dm N', nst') /\
    relf 0 cmap' (enc [] sub) N' /\ length nst' = length N' /\ (forall l, lsum N' nst' l = lsum sub stride l) /\ (forall c, In c N' -> In c sub).
Proof.
  intros A LS. induction cs as [|c cs IH]; intros pre cmap N nst ES RL LN ND IN CM SM; cbn [length merge_go].
  - rewrite app_nil_r in ES. subst pre. exists cmap, N, nst. repeat split; auto.
    + intros l. rewrite SM. rewrite LS, firstn_all. reflexivity.
    + intros c. apply IN.
  - assert (LP : length pre < length sub) by (rewrite ES, app_length; cbn [length]; lia).
    assert (LCM : length cmap = length pre).
    { clear - RL. rewrite <- (enc_length [] pre). induction RL; cbn [length]; congruence. }
    assert (EL : nth_error (enc [] sub) (length pre) = Some (match position pre c with None => c | Some f => (Z.of_nat f - Z.of_nat (length pre))%Z end)).
    { rewrite (enc_nth [] sub (length pre) c).
      - rewrite ES, firstn_app, firstn_all, Nat.sub_diag, firstn_O, app_nil_r. reflexivity.
      - rewrite ES, nth_error_app2 by lia. now rewrite Nat.sub_diag. }
    rewrite (vget_error (enc [] sub ++ tail) _ _ (eq_trans (nth_error_app1 _ _ (eq_ind_r (fun n => length pre < n) LP (enc_length [] sub))) EL)). cbn [bind].
    assert (ED : vget (map dm sub) (length pre) = Ok (dm c)).
    { apply vget_error. rewrite ES, map_app. rewrite nth_error_app2 by now rewrite map_length. rewrite map_length, Nat.sub_diag. reflexivity. }
    rewrite ED. cbn [bind].
    destruct (nth_error stride (length pre)) as [s|] eqn:EST; [|apply nth_error_None in EST; lia].
    rewrite (vget_error _ _ _ EST). cbn [bind].
    assert (EF : firstn (length (pre ++ [c])) stride = firstn (length pre) stride ++ [s]).
    { rewrite app_length. cbn [length]. rewrite Nat.add_1_r. clear - EST. revert EST. generalize (length pre) as n. intros n. revert n.
      induction stride as [|x st IHs]; intros [|n] E; try discriminate; [now injection E as ->|]. cbn [firstn app]. f_equal. now apply IHs. }
    assert (SN : forall l, lsum (pre ++ [c]) (firstn (length (pre ++ [c])) stride) l = lsum pre (firstn (length pre) stride) l + (if (l =? c)%Z then s else 0)).
    { intros l. rewrite EF. rewrite lsum_app by (rewrite firstn_length; lia). cbn [lsum]. lia. }
    assert (EE : enc [] (pre ++ [c]) = enc [] pre ++ [match position pre c with None => c | Some f => (Z.of_nat f - Z.of_nat (length pre))%Z end]).
    { rewrite enc_app. reflexivity. }
    assert (EP : S (length pre) = length (pre ++ [c])) by (rewrite app_length; cbn [length]; lia).
    assert (ES' : sub = (pre ++ [c]) ++ cs) by (rewrite <- app_assoc; exact ES).
    assert (PC : (0 < c)%Z).
    { apply is_alpha_pos. apply (proj1 (Forall_forall _ _) A c). rewrite ES. apply in_or_app. right. now left. }
    destruct (position pre c) as [f|] eqn:P.
    + pose proof (position_lt _ _ _ P) as LF. destruct (position_Some _ _ _ P) as [P1 P2].
      rewrite (proj2 (Z.leb_gt _ _)) by lia. unfold zget. rewrite (proj2 (Z.ltb_ge _ _)) by lia. replace (Z.to_nat _) with f by lia.
      destruct (CM f c P1 P2) as (i & CI & NI). rewrite (vget_error _ _ _ CI). cbn [bind].
      destruct (lsum_upd N nst i c s ND LN NI) as (old & G & st' & S & L' & HS). rewrite G. cbn [bind]. rewrite S. cbn [bind].
      rewrite (vget_error (map dm N) i (dm c)) by now rewrite nth_error_map, NI. cbn [bind]. rewrite Nat.eqb_refl. cbn [guard bind].
      rewrite EP. apply IH; auto.
      * rewrite EE. now apply relf_snoc_none.
      * intros x. rewrite IN, in_app_iff. split; [auto|]. intros [H|[<-|[]]]; auto. now apply nth_error_In with f.
      * intros j x Hj Pj. destruct (Nat.lt_ge_cases j (length pre)) as [LJ|GJ].
        -- rewrite nth_error_app1 in Hj by auto. rewrite firstn_app in Pj. replace (j - length pre) with 0 in Pj by lia. rewrite firstn_O, app_nil_r in Pj.
           destruct (CM j x Hj Pj) as (k & K1 & K2). exists k. split; auto. rewrite nth_error_app1; auto. congruence.
        -- assert (j = length pre) as ->.
           { assert (j < length (pre ++ [c])) by (apply nth_error_Some; congruence). lia. }
           rewrite nth_error_app2, Nat.sub_diag in Hj by lia. injection Hj as <-.
           rewrite firstn_app, firstn_all, Nat.sub_diag, firstn_O, app_nil_r in Pj. congruence.
      * intros l. rewrite HS, SM. symmetry. apply SN.
    + rewrite (proj2 (Z.leb_le _ _)) by lia. rewrite EP.
      replace (map dm N ++ [dm c]) with (map dm (N ++ [c])) by now rewrite map_app. rewrite map_length.
      apply position_None in P.
      apply IH; auto.
      * rewrite EE. apply (relf_snoc_some 0 cmap (enc [] pre) N c RL).
      * rewrite !app_length. cbn [length]. congruence.
      * apply (Permutation_NoDup (Permutation_cons_append N c)). constructor; auto. now rewrite IN.
      * intros x. rewrite !in_app_iff, IN. tauto.
      * intros j x Hj Pj. destruct (Nat.lt_ge_cases j (length pre)) as [LJ|GJ].
        -- rewrite nth_error_app1 in Hj by auto. rewrite firstn_app in Pj. replace (j - length pre) with 0 in Pj by lia. rewrite firstn_O, app_nil_r in Pj.
           destruct (CM j x Hj Pj) as (k & K1 & K2). exists k. split; [rewrite nth_error_app1; auto; congruence|].
           rewrite nth_error_app1; auto. apply nth_error_Some. congruence.
        -- assert (j = length pre) as ->.
           { assert (j < length (pre ++ [c])) by (apply nth_error_Some; congruence). lia. }
           rewrite nth_error_app2, Nat.sub_diag in Hj by lia. injection Hj as <-. exists (length N). split.
           ++ rewrite nth_error_app2 by lia. now rewrite LCM, Nat.sub_diag.
           ++ rewrite nth_error_app2 by lia. now rewrite Nat.sub_diag.
      * intros l. rewrite lsum_app by congruence. cbn [lsum]. rewrite SM, SN. lia.
Qed.

Lemma relf_length k cm es N : relf k cm es N -> length N <= length es.
Proof. induction 1; cbn [length]; lia. Qed.

Lemma reshape_operand_ok dm a sub : letters sub -> a_shape a = map dm sub -> length (a_stride a) = length sub -> length sub <= MAX_DIMS ->
  exists labels st dec, reshape_operand a (pad (enc [] sub)) = Ok (labels, st) /\ length dec = length st /\ length st <= length labels /\
    decodes labels dec /\ forall l, lsum dec st l = lsum sub (a_stride a) l.
Proof.
  intros A SH LS LM. unfold reshape_operand. destruct (forallb _ _).
  - exists (pad (enc [] sub)), (a_stride a), sub. split; [reflexivity|]. split; [auto|]. split.
    + unfold pad. rewrite app_length, repeat_length, enc_length. lia.
    + split; [now apply decodes_enc|reflexivity].
  - rewrite SH, map_length.
    destruct (merge_go_ok dm sub (a_stride a) (repeat 0%Z (MAX_DIMS - length (enc [] sub))) A (eq_sym LS) sub [] [] [] []) as (cm & N & nst & E & RL & LN & HS & IN).
    + reflexivity.
    + constructor.
    + reflexivity.
    + constructor.
    + tauto.
    + intros [|j] c H; discriminate.
    + reflexivity.
    + cbn [length map] in E. unfold pad. rewrite E. cbn [bind].
      destruct (relabel_go_ok 0 cm (enc [] sub) N RL [] [] (repeat 0%Z (MAX_DIMS - length (enc [] sub))) eq_refl) as (rest & E' & L).
      cbn [app length] in E', L. rewrite E'. cbn [bind]. exists (N ++ rest), nst, N. split; [reflexivity|]. split; [auto|]. split; [|split; [|exact HS]].
      * rewrite app_length. lia.
      * intros j c H. unfold label_of. rewrite (vget_error (N ++ rest) j c).
        -- cbn [bind]. assert (0 < c)%Z. { apply is_alpha_pos. apply (proj1 (Forall_forall _ _) A c). apply IN. now apply nth_error_In with j. }
           now rewrite (proj2 (Z.ltb_ge _ _)) by lia.
        -- rewrite nth_error_app1; auto. apply nth_error_Some. congruence.
Qed.
