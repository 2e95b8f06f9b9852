(** EinsumFacts2.v: what the sum-of-products kernels and loops add to the destination. *)
From Coq Require Import List Arith Lia Bool ZArith Permutation.
From Verif Require Import Base Spec Layout SpecFacts LayoutFacts Views Kernels Access HeapFacts ReduceFacts Reduce Einsum EinsumFacts.
Import ListNotations.
Open Scope res_scope.

Section Csr.
  Context {T : Type}.
  Variable zero one : T.
  Variable add mul : T -> T -> T.
  Variable CSR : is_csr zero one add mul.

  Local Notation addM := (fun x y => Ok (add x y)).
  Local Notation mulM := (fun x y => Ok (mul x y)).
  Local Notation fmaM := (fun a b c => Ok (add (mul a b) c)).
  Local Notation sum := (bigsum add zero).
  Local Notation product := (bigsum mul one).

  Lemma add_0_r x : add x zero = x.
  Proof. rewrite (csr_add_comm _ _ _ _ CSR). apply (csr_add_0 _ _ _ _ CSR). Qed.
  Lemma mul_1_r x : mul x one = x.
  Proof. rewrite (csr_mul_comm _ _ _ _ CSR). apply (csr_mul_1 _ _ _ _ CSR). Qed.
  Lemma add_swap x y z : add x (add y z) = add y (add x z).
  Proof. rewrite !(csr_add_assoc _ _ _ _ CSR). f_equal. apply (csr_add_comm _ _ _ _ CSR). Qed.

  Lemma sum_app l1 l2 : sum (l1 ++ l2) = add (sum l1) (sum l2).
  Proof.
    induction l1 as [|x l IH]; cbn [app bigsum fold_right]; [now rewrite (csr_add_0 _ _ _ _ CSR)|].
    unfold bigsum in IH. now rewrite IH, (csr_add_assoc _ _ _ _ CSR).
  Qed.
  Lemma sum_perm l1 l2 : Permutation l1 l2 -> sum l1 = sum l2.
  Proof.
    induction 1 as [|x l l' P IH|x y l|l l' l'' P1 IH1 P2 IH2]; cbn [bigsum fold_right] in *; try congruence.
    - unfold bigsum in *. now rewrite IH.
    - apply add_swap.
  Qed.
  Lemma sum_mul c l : sum (map (mul c) l) = mul c (sum l).
  Proof.
    induction l as [|x l IH]; cbn [map bigsum fold_right].
    - now rewrite (csr_mul_comm _ _ _ _ CSR), (csr_mul_0 _ _ _ _ CSR).
    - unfold bigsum in IH. now rewrite IH, (csr_distr _ _ _ _ CSR).
  Qed.

  (** what a list of (position, value) pairs adds to cell o *)
  Definition contrib (l : list (nat * T)) (o : nat) : T :=
    sum (map snd (filter (fun p => fst p =? o) l)).

  Lemma contrib_app l1 l2 o : contrib (l1 ++ l2) o = add (contrib l1 o) (contrib l2 o).
  Proof. unfold contrib. now rewrite filter_app, map_app, sum_app. Qed.

  Lemma perm_filter {A} (f : A -> bool) l l' : Permutation l l' -> Permutation (filter f l) (filter f l').
  Proof.
    induction 1 as [|x l l' P IH|x y l|l l' l'' P1 IH1 P2 IH2]; cbn [filter].
    - constructor.
    - destruct (f x); auto.
    - destruct (f x), (f y); auto. apply perm_swap.
    - now apply Permutation_trans with (filter f l').
  Qed.
  Lemma contrib_perm l1 l2 o : Permutation l1 l2 -> contrib l1 o = contrib l2 o.
  Proof. intros P. unfold contrib. apply sum_perm. apply Permutation_map. now apply perm_filter. Qed.

  (** h' is h with the contributions of l added to the cells of block b *)
  Definition acc_eff (h h' : heap T) (b : nat) (l : list (nat * T)) : Prop :=
    length h' = length h /\
    (forall b' o, b' <> b -> load h' b' o = load h b' o) /\
    (forall o, load h' b o = (x <- load h b o ;; Ok (add x (contrib l o)))).

  Lemma acc_nil h b : acc_eff h h b [].
  Proof.
    split; [reflexivity|]. split; [reflexivity|]. intros o. unfold contrib. cbn [filter map bigsum fold_right].
    destruct (load h b o); cbn [bind]; try reflexivity. now rewrite add_0_r.
  Qed.

  Lemma acc_trans h h1 h2 b l1 l2 : acc_eff h h1 b l1 -> acc_eff h1 h2 b l2 -> acc_eff h h2 b (l1 ++ l2).
  Proof.
    intros (L1 & F1 & C1) (L2 & F2 & C2). split; [congruence|]. split.
    - intros b' o N. now rewrite F2, F1.
    - intros o. rewrite C2, C1. destruct (load h b o); cbn [bind]; try reflexivity.
      now rewrite contrib_app, (csr_add_assoc _ _ _ _ CSR).
  Qed.

  Lemma acc_perm h h' b l1 l2 : Permutation l1 l2 -> acc_eff h h' b l1 -> acc_eff h h' b l2.
  Proof.
    intros P (L & F & C). split; [auto|]. split; [auto|]. intros o. rewrite C.
    destruct (load h b o); cbn [bind]; try reflexivity. now rewrite (contrib_perm _ _ o P).
  Qed.

  Lemma acc_ok h h' b l o : acc_eff h h' b l -> (exists x, load h b o = Ok x) -> exists x, load h' b o = Ok x.
  Proof. intros (_ & _ & C) (x & E). rewrite C, E. cbn [bind]. eauto. Qed.

  Lemma acc_store h b o x v : load h b o = Ok x -> exists h', store h b o (add x v) = Ok h' /\ acc_eff h h' b [(o, v)].
  Proof.
    intros E. destruct (store_ok h b o (add x v) x E) as (h' & S). exists h'. split; [auto|].
    split; [now apply (store_length _ _ _ _ _ S)|]. split.
    - intros b' o' N. apply (load_store_other _ _ _ _ _ _ _ S). congruence.
    - intros o'. rewrite (load_store _ _ _ _ _ S). rewrite Nat.eqb_refl. unfold contrib. cbn [filter fst andb].
      rewrite (Nat.eqb_sym o o'). destruct (o' =? o) eqn:Q.
      + apply Nat.eqb_eq in Q. subst o'. rewrite E. cbn [bind map snd bigsum fold_right]. now rewrite add_0_r.
      + cbn [map bigsum fold_right]. destruct (load h b o'); cbn [bind]; try reflexivity. now rewrite add_0_r.
  Qed.

  Lemma add_to_ok h b o x v : load h b o = Ok x -> exists h', add_to addM h (b, o) v = Ok h' /\ acc_eff h h' b [(o, v)].
  Proof.
    intros E. unfold add_to, ld, Kernels.st. cbn [fst snd]. rewrite E. cbn [bind]. now apply acc_store.
  Qed.

  (** a source pointer with stride: block other than b, value V k at step k *)
  Definition src_ok (h : heap T) (b count : nat) (p : ptr) (s : nat) (V : nat -> T) : Prop :=
    fst p <> b /\ forall k, k < count -> ld h (padd p (k * s)) = Ok (V k).

  Lemma src_ok_eff h h' b count p s V l : acc_eff h h' b l -> src_ok h b count p s V -> src_ok h' b count p s V.
  Proof. intros (_ & F & _) (N & H). split; [auto|]. intros k L. unfold ld. rewrite F; [now apply H|exact N]. Qed.

  Lemma src_ok_le h b c c' p s V : c' <= c -> src_ok h b c p s V -> src_ok h b c' p s V.
  Proof. intros L (N & H). split; [auto|]. intros k Hk. apply H. lia. Qed.

  Lemma padd_padd p m n : padd (padd p m) n = padd p (m + n).
  Proof. unfold padd. cbn [fst snd]. f_equal. lia. Qed.

  Lemma src_ok_tail h b c p s V : src_ok h b (S c) p s V -> src_ok h b c (padd p s) s (fun k => V (S k)).
  Proof.
    intros (N & H). split; [auto|]. intros k L. rewrite padd_padd. replace (s + k * s) with (S k * s) by lia. apply H. lia.
  Qed.

  Inductive srcs (h : heap T) (b count : nat) : list ptr -> list nat -> list (nat -> T) -> Prop :=
  | srcs_nil : srcs h b count [] [] []
  | srcs_cons p s V ps ss Vs : src_ok h b count p s V -> srcs h b count ps ss Vs -> srcs h b count (p :: ps) (s :: ss) (V :: Vs).

  Lemma srcs_eff h h' b count ps ss Vs l : acc_eff h h' b l -> srcs h b count ps ss Vs -> srcs h' b count ps ss Vs.
  Proof. intros A. induction 1; constructor; auto. now apply src_ok_eff with h l. Qed.
  Lemma srcs_le h b c c' ps ss Vs : c' <= c -> srcs h b c ps ss Vs -> srcs h b c' ps ss Vs.
  Proof. intros L. induction 1; constructor; auto. now apply src_ok_le with c. Qed.

  Lemma prod_at_ok h b count ps ss Vs k acc : srcs h b count ps ss Vs -> k < count ->
    prod_at mulM h ps ss k acc = Ok (mul acc (product (map (fun V => V k) Vs))).
  Proof.
    intros H L. revert acc. induction H as [|p s V ps ss Vs (N & S) H IH]; intros acc; cbn [prod_at map bigsum fold_right].
    - now rewrite mul_1_r.
    - rewrite S by auto. cbn [bind]. rewrite IH. unfold bigsum. now rewrite (csr_mul_assoc _ _ _ _ CSR).
  Qed.

  (** contributions of one kernel call *)
  Definition row_l (o ds count : nat) (Vs : list (nat -> T)) : list (nat * T) :=
    map (fun k => (o + k * ds, product (map (fun V => V k) Vs))) (seq 0 count).

  Lemma row_l_S o ds count Vs : row_l o ds (S count) Vs = row_l o ds count Vs ++ [(o + count * ds, product (map (fun V => V count) Vs))].
  Proof. unfold row_l. rewrite seq_S, map_app. reflexivity. Qed.

  Definition dst_ok (h : heap T) (b o ds count : nat) : Prop := forall k, k < count -> exists x, load h b (o + k * ds) = Ok x.
  Lemma dst_ok_eff h h' b o ds c l : acc_eff h h' b l -> dst_ok h b o ds c -> dst_ok h' b o ds c.
  Proof. intros A D k L. apply (acc_ok h h' b l); auto. Qed.

  Lemma uassert_pos n : 0 < n -> uassert (0 <? n) = Ok tt.
  Proof. intros H. unfold uassert. now rewrite (proj2 (Nat.ltb_lt _ _) H). Qed.

  Lemma sop_generic_ok h b o ds ps ss Vs count : 0 < count -> srcs h b count ps ss Vs -> dst_ok h b o ds count ->
    exists h', sop_generic one addM mulM h ps ss (b, o) ds count = Ok h' /\ acc_eff h h' b (row_l o ds count Vs).
  Proof.
    intros C S D. unfold sop_generic. rewrite uassert_pos by auto. cbn [bind]. clear C.
    revert h S D. induction count as [|c IH]; intros h S D; cbn [sop_generic_go].
    - exists h. split; [reflexivity|]. apply acc_nil.
    - rewrite (prod_at_ok h b (Datatypes.S c) ps ss Vs c one S) by lia. cbn [bind]. rewrite (csr_mul_1 _ _ _ _ CSR).
      destruct (D c ltac:(lia)) as (x & E). destruct (add_to_ok h b (o + c * ds) x (product (map (fun V => V c) Vs)) E) as (h1 & E1 & A1).
      unfold padd. cbn [fst snd]. rewrite E1. cbn [bind].
      destruct (IH h1) as (h2 & E2 & A2).
      + apply (srcs_le h1 b (Datatypes.S c)); [lia|]. now apply (srcs_eff h h1 b _ ps ss Vs _ A1).
      + apply (dst_ok_eff h h1 b o ds c _ A1). intros k L. apply D. lia.
      + exists h2. split; [auto|]. rewrite row_l_S. 
        apply (acc_perm h h2 b ([(o + c * ds, product (map (fun V => V c) Vs))] ++ row_l o ds c Vs)); [apply Permutation_app_comm|].
        now apply acc_trans with h1.
  Qed.

  (** all contributions to one cell *)
  Lemma contrib_const l o : Forall (fun p => fst p = o) l -> forall o', contrib l o' = if o =? o' then sum (map snd l) else zero.
  Proof.
    intros F o'. unfold contrib. induction l as [|p l IH]; cbn [filter map bigsum fold_right].
    - now destruct (o =? o').
    - inversion F as [|p' l' E F']; subst. specialize (IH F'). destruct (fst p =? o') eqn:Q.
      + cbn [map bigsum fold_right]. unfold bigsum in *. now rewrite IH.
      + exact IH.
  Qed.

  Lemma acc_sum h h' b o v l : Forall (fun p => fst p = o) l -> v = sum (map snd l) ->
    acc_eff h h' b [(o, v)] -> acc_eff h h' b l.
  Proof.
    intros F -> (L & FR & C). split; [auto|]. split; [auto|]. intros o'. rewrite C.
    destruct (load h b o'); cbn [bind]; try reflexivity. do 2 f_equal. rewrite (contrib_const l o F).
    unfold contrib. cbn [filter fst]. destruct (o =? o'); cbn [map snd bigsum fold_right]; [apply add_0_r|reflexivity].
  Qed.

  Lemma row_l_0 o count Vs : Forall (fun p => fst p = o) (row_l o 0 count Vs).
  Proof. unfold row_l. apply Forall_forall. intros p I. apply in_map_iff in I as (k & <- & _). cbn [fst]. lia. Qed.

  Lemma snd_row_l o ds count Vs : map snd (row_l o ds count Vs) = map (fun k => product (map (fun V => V k) Vs)) (seq 0 count).
  Proof. unfold row_l. rewrite map_map. reflexivity. Qed.

  Lemma sop_out0_go_ok h b ps ss Vs count : forall acc, srcs h b count ps ss Vs ->
    sop_out0_go one addM mulM h ps ss count acc = Ok (add acc (sum (map (fun k => product (map (fun V => V k) Vs)) (seq 0 count)))).
  Proof.
    induction count as [|c IH]; intros acc S; cbn [sop_out0_go].
    - cbn [seq map bigsum fold_right]. now rewrite add_0_r.
    - rewrite (prod_at_ok h b (Datatypes.S c) ps ss Vs c one S) by lia. cbn [bind]. rewrite (csr_mul_1 _ _ _ _ CSR).
      rewrite IH by (apply (srcs_le h b (Datatypes.S c)); [lia|auto]). f_equal. rewrite seq_S, map_app, sum_app. cbn [map bigsum fold_right Nat.add].
      rewrite add_0_r, <- (csr_add_assoc _ _ _ _ CSR). f_equal. apply (csr_add_comm _ _ _ _ CSR).
  Qed.

  Lemma sop_out0_ok h b o ps ss Vs count : 0 < count -> srcs h b count ps ss Vs -> dst_ok h b o 0 count ->
    exists h', sop_out0 zero one addM mulM h ps ss (b, o) count = Ok h' /\ acc_eff h h' b (row_l o 0 count Vs).
  Proof.
    intros C S D. unfold sop_out0. rewrite uassert_pos by auto. cbn [bind]. rewrite (sop_out0_go_ok h b ps ss Vs count zero S). cbn [bind].
    rewrite (csr_add_0 _ _ _ _ CSR). destruct (D 0 C) as (x & E). rewrite Nat.mul_0_l, Nat.add_0_r in E.
    destruct (add_to_ok h b o x (sum (map (fun k => product (map (fun V => V k) Vs)) (seq 0 count))) E) as (h' & E' & A).
    exists h'. split; [exact E'|]. apply (acc_sum h h' b o _ _ (row_l_0 o count Vs)) in A; auto. now rewrite snd_row_l.
  Qed.

  Lemma dot_go_ok h b count : forall p0 s0 V0 p1 s1 V1 acc, src_ok h b count p0 s0 V0 -> src_ok h b count p1 s1 V1 ->
    dot_go addM mulM h p0 s0 p1 s1 count acc = Ok (add acc (sum (map (fun k => mul (V0 k) (V1 k)) (seq 0 count)))).
  Proof.
    induction count as [|c IH]; intros p0 s0 V0 p1 s1 V1 acc H0 H1; cbn [dot_go].
    - cbn [seq map bigsum fold_right]. now rewrite add_0_r.
    - pose proof (proj2 H0 0 ltac:(lia)) as E0. pose proof (proj2 H1 0 ltac:(lia)) as E1.
      rewrite Nat.mul_0_l in E0, E1. unfold padd in E0, E1. rewrite Nat.add_0_r, <- surjective_pairing in E0, E1. rewrite E0, E1. cbn [bind].
      rewrite (IH _ _ _ _ _ _ _ (src_ok_tail _ _ _ _ _ _ H0) (src_ok_tail _ _ _ _ _ _ H1)). f_equal.
      cbn [seq map bigsum fold_right]. rewrite <- seq_shift, map_map. unfold bigsum. now rewrite <- (csr_add_assoc _ _ _ _ CSR).
  Qed.

  Lemma product_two x y : product [x; y] = mul x y.
  Proof. cbn [bigsum fold_right]. now rewrite mul_1_r. Qed.

  Lemma strided_dot_ok h b o p0 s0 V0 p1 s1 V1 count : 0 < count -> src_ok h b count p0 s0 V0 -> src_ok h b count p1 s1 V1 ->
    dst_ok h b o 0 count ->
    exists h', strided_dot zero addM mulM h p0 s0 p1 s1 (b, o) count = Ok h' /\ acc_eff h h' b (row_l o 0 count [V0; V1]).
  Proof.
    intros C H0 H1 D. unfold strided_dot. rewrite (dot_go_ok h b count p0 s0 V0 p1 s1 V1 zero H0 H1). cbn [bind].
    rewrite (csr_add_0 _ _ _ _ CSR). destruct (D 0 C) as (x & E). rewrite Nat.mul_0_l, Nat.add_0_r in E.
    destruct (add_to_ok h b o x (sum (map (fun k => mul (V0 k) (V1 k)) (seq 0 count))) E) as (h' & E' & A).
    exists h'. split; [exact E'|]. apply (acc_sum h h' b o _ _ (row_l_0 o count [V0; V1])) in A; auto.
    rewrite snd_row_l. f_equal. apply map_ext. intros k. cbn [map]. now rewrite product_two.
  Qed.

  Lemma padd_0 (p : ptr) : padd p 0 = p.
  Proof. unfold padd. rewrite Nat.add_0_r. now destruct p. Qed.

  Lemma src_head h b c p s V : src_ok h b (S c) p s V -> ld h p = Ok (V 0).
  Proof. intros (_ & H). pose proof (H 0 ltac:(lia)) as E. now rewrite Nat.mul_0_l, padd_0 in E. Qed.

  Lemma src_zero h b c p V k : src_ok h b c p 0 V -> k < c -> V k = V 0.
  Proof.
    intros (_ & H) L. pose proof (H k L) as E. pose proof (H 0 ltac:(lia)) as E0. rewrite Nat.mul_0_r in E. rewrite Nat.mul_0_r in E0. congruence.
  Qed.

  Lemma dst_tail h b o c : dst_ok h b o 1 (S c) -> dst_ok h b (o + 1) 1 c.
  Proof. intros D k L. destruct (D (S k) ltac:(lia)) as (x & E). exists x. rewrite <- E. f_equal. lia. Qed.

  Lemma muladd_go_ok b scalar V count : forall h o p, src_ok h b count p 1 V -> dst_ok h b o 1 count ->
    exists h', muladd_go fmaM h scalar p (b, o) count = Ok h' /\
      acc_eff h h' b (map (fun k => (o + k, mul scalar (V k))) (seq 0 count)).
  Proof.
    revert V. induction count as [|c IH]; intros V h o p H D; cbn [muladd_go].
    - exists h. split; [reflexivity|apply acc_nil].
    - rewrite (src_head h b c p 1 V H). cbn [bind]. destruct (D 0 ltac:(lia)) as (x & E). rewrite Nat.mul_0_l, Nat.add_0_r in E.
      unfold ld at 1. cbn [fst snd]. rewrite E. cbn [bind]. unfold Kernels.st. cbn [fst snd].
      rewrite (csr_add_comm _ _ _ _ CSR). destruct (acc_store h b o x (mul scalar (V 0)) E) as (h1 & E1 & A1). rewrite E1. cbn [bind].
      unfold padd at 2. cbn [fst snd].
      destruct (IH (fun k => V (S k)) h1 (o + 1) (padd p 1)) as (h2 & E2 & A2).
      + apply (src_ok_eff h h1 b c _ _ _ _ A1). now apply src_ok_tail.
      + apply (dst_ok_eff h h1 b _ _ _ _ A1). now apply dst_tail.
      + exists h2. split; [exact E2|]. cbn [seq map]. rewrite Nat.add_0_r. rewrite <- seq_shift, map_map.
        change ((o, mul scalar (V 0)) :: ?l) with ([(o, mul scalar (V 0))] ++ l). apply acc_trans with h1; auto.
        erewrite map_ext; [exact A2|]. intros k. cbn beta. f_equal. lia.
  Qed.

  Lemma sop_muladd_ok h b o p0 V0 p1 V1 count : 0 < count -> src_ok h b count p0 0 V0 -> src_ok h b count p1 1 V1 -> dst_ok h b o 1 count ->
    exists h', sop_muladd fmaM h p0 p1 (b, o) count = Ok h' /\ acc_eff h h' b (row_l o 1 count [V0; V1]).
  Proof.
    intros C H0 H1 D. unfold sop_muladd. rewrite uassert_pos by auto. cbn [bind].
    destruct count as [|c]; [lia|]. rewrite (src_head h b c p0 0 V0 H0). cbn [bind].
    destruct (muladd_go_ok b (V0 0) V1 (S c) h o p1 H1 D) as (h' & E & A). exists h'. split; [exact E|].
    unfold row_l. erewrite map_ext_in; [exact A|]. intros k I. apply in_seq in I. cbn beta. f_equal; [lia|].
    cbn [map]. rewrite product_two. f_equal. apply (src_zero h b (S c) p0); [auto|lia].
  Qed.

  Lemma fold_run_sum h b count : forall p V acc, src_ok h b count p 1 V ->
    fold_run (fun v acc => Ok (add acc v)) h p count 1 acc = Ok (add acc (sum (map V (seq 0 count)))).
  Proof.
    induction count as [|c IH]; intros p V acc H; cbn [fold_run].
    - cbn [seq map bigsum fold_right]. now rewrite add_0_r.
    - rewrite (src_head h b c p 1 V H). cbn [bind]. rewrite (IH _ _ _ (src_ok_tail _ _ _ _ _ _ H)). f_equal.
      cbn [seq map bigsum fold_right]. rewrite <- seq_shift, map_map. unfold bigsum. now rewrite <- (csr_add_assoc _ _ _ _ CSR).
  Qed.

  Lemma sop_scaled_ok h b o p0 V0 p1 V1 count : 0 < count -> src_ok h b count p0 0 V0 -> src_ok h b count p1 1 V1 -> dst_ok h b o 0 count ->
    exists h', sop_scaled zero addM fmaM h p0 p1 (b, o) count = Ok h' /\ acc_eff h h' b (row_l o 0 count [V0; V1]).
  Proof.
    intros C H0 H1 D. unfold sop_scaled. rewrite uassert_pos by auto. cbn [bind].
    destruct count as [|c]; [lia|]. rewrite (src_head h b c p0 0 V0 H0). cbn [bind].
    rewrite (fold_run_sum h b (S c) p1 V1 zero H1). cbn [bind]. rewrite (csr_add_0 _ _ _ _ CSR).
    destruct (D 0 C) as (x & E). rewrite Nat.mul_0_l, Nat.add_0_r in E. unfold ld, Kernels.st. cbn [fst snd]. rewrite E. cbn [bind].
    rewrite (csr_add_comm _ _ _ _ CSR). destruct (acc_store h b o x (mul (V0 0) (sum (map V1 (seq 0 (S c))))) E) as (h' & E' & A).
    exists h'. split; [exact E'|]. apply (acc_sum h h' b o _ _ (row_l_0 o (S c) [V0; V1])) in A; auto.
    rewrite snd_row_l, <- sum_mul, map_map. f_equal. apply map_ext_in. intros k I. apply in_seq in I. cbn [map]. rewrite product_two.
    f_equal. symmetry. apply (src_zero h b (S c) p0); [auto|lia].
  Qed.

  Lemma sop_111_ok b count : forall h o p0 V0 p1 V1, src_ok h b count p0 1 V0 -> src_ok h b count p1 1 V1 -> dst_ok h b o 1 count ->
    exists h', sop_111_go addM mulM h p0 p1 (b, o) count = Ok h' /\ acc_eff h h' b (row_l o 1 count [V0; V1]).
  Proof.
    induction count as [|c IH]; intros h o p0 V0 p1 V1 H0 H1 D; cbn [sop_111_go].
    - exists h. split; [reflexivity|apply acc_nil].
    - rewrite (src_head h b c p0 1 V0 H0), (src_head h b c p1 1 V1 H1). cbn [bind].
      destruct (D 0 ltac:(lia)) as (x & E). rewrite Nat.mul_0_l, Nat.add_0_r in E.
      destruct (add_to_ok h b o x (mul (V0 0) (V1 0)) E) as (h1 & E1 & A1). rewrite E1. cbn [bind].
      unfold padd at 3. cbn [fst snd].
      destruct (IH h1 (o + 1) (padd p0 1) (fun k => V0 (S k)) (padd p1 1) (fun k => V1 (S k))) as (h2 & E2 & A2).
      + apply (src_ok_eff h h1 b c _ _ _ _ A1). now apply src_ok_tail.
      + apply (src_ok_eff h h1 b c _ _ _ _ A1). now apply src_ok_tail.
      + apply (dst_ok_eff h h1 b _ _ _ _ A1). now apply dst_tail.
      + exists h2. split; [exact E2|]. unfold row_l. cbn [seq map]. rewrite product_two, Nat.mul_0_l, Nat.add_0_r. rewrite <- seq_shift, map_map.
        change ((o, mul (V0 0) (V1 0)) :: ?l) with ([(o, mul (V0 0) (V1 0))] ++ l). apply acc_trans with h1; auto.
        unfold row_l in A2. erewrite map_ext; [exact A2|]. intros k. cbn beta. f_equal. lia.
  Qed.

  Lemma row_l_swap o ds count V0 V1 : row_l o ds count [V0; V1] = row_l o ds count [V1; V0].
  Proof. unfold row_l. apply map_ext. intros k. cbn [map]. rewrite !product_two. f_equal. apply (csr_mul_comm _ _ _ _ CSR). Qed.

  (** every kernel that may be selected has the same effect *)
  Definition good_sop (f : heap T -> list ptr -> list nat -> ptr -> nat -> nat -> res (heap T)) : Prop :=
    forall h b o ds ps ss Vs count, 0 < count -> srcs h b count ps ss Vs -> dst_ok h b o ds count ->
      exists h', f h ps ss (b, o) ds count = Ok h' /\ acc_eff h h' b (row_l o ds count Vs).

  Lemma sop_slice_good : good_sop (sop_slice zero one addM mulM).
  Proof.
    intros h b o ds ps ss Vs count C S D. unfold sop_slice. destruct (ds =? 0) eqn:Q.
    - apply Nat.eqb_eq in Q. subst ds. now apply sop_out0_ok.
    - now apply sop_generic_ok.
  Qed.

  Lemma sop_two_ok h b o ds p0 s0 V0 p1 s1 V1 count : 0 < count -> src_ok h b count p0 s0 V0 -> src_ok h b count p1 s1 V1 -> dst_ok h b o ds count ->
    exists h', sop_two zero one addM mulM fmaM h p0 s0 p1 s1 (b, o) ds count = Ok h' /\ acc_eff h h' b (row_l o ds count [V0; V1]).
  Proof.
    intros C H0 H1 D.
    assert (G : exists h', (if ds =? 0 then sop_out0 zero one addM mulM h [p0; p1] [s0; s1] (b, o) count
                            else sop_generic one addM mulM h [p0; p1] [s0; s1] (b, o) ds count) = Ok h' /\ acc_eff h h' b (row_l o ds count [V0; V1])).
    { apply (sop_slice_good h b o ds [p0; p1] [s0; s1] [V0; V1] count); auto. repeat constructor; apply H0 || apply H1. }
    unfold sop_two. destruct s0 as [|[|s0]], s1 as [|[|s1]], ds as [|[|ds]]; cbn [Nat.eqb Nat.add];
      repeat (rewrite Nat.add_succ_r; cbn [Nat.add]);
      first [ exact G | apply sop_scaled_ok; assumption | apply sop_muladd_ok; assumption
            | rewrite row_l_swap; apply sop_scaled_ok; assumption | rewrite row_l_swap; apply sop_muladd_ok; assumption
            | rewrite uassert_pos by auto; cbn [bind]; apply strided_dot_ok; assumption
            | unfold sop_111; rewrite uassert_pos by auto; cbn [bind]; apply sop_111_ok; assumption ].
  Qed.

  Lemma sop_fixed_good : good_sop (sop_fixed zero one addM mulM fmaM).
  Proof.
    intros h b o ds ps ss Vs count C S D. pose proof (sop_slice_good h b o ds ps ss Vs count C S D) as G. unfold sop_slice in G. unfold sop_fixed.
    inversion S as [|p0 s0 V0 ps0 ss0 Vs0 H0 S0]; subst; try exact G.
    inversion S0 as [|p1 s1 V1 ps1 ss1 Vs1 H1 S1]; subst; try exact G.
    inversion S1; subst; try exact G. now apply sop_two_ok.
  Qed.
End Csr.
