(** IntsGrow.v: when the sums of products of dot, matmul, bmm and einsum cannot overflow.
    The operation is compared with its run on magnitudes: there the cells of the result
    only grow, so a bound on the final cells bounds every intermediate value. *)
From Coq Require Import List Arith Lia Bool ZArith.
From Verif Require Import Base Spec Layout SpecFacts LayoutFacts Views ViewsFacts Kernels Access HeapFacts KernelFacts OpFacts
  AccessFacts Chain ChainFacts Reduce ReduceFacts PropsOps Einsum EinsumFacts EinsumFacts2 EinsumFacts3 EinsumFacts7 ViewsFacts2 ViewsFacts3 ViewsFacts4 Numeric Ints Param.
Import ListNotations.
Open Scope res_scope.

Lemma checked_ok lo hi v : (lo <= v <= hi)%Z -> checked lo hi v = Ok v.
Proof. intros H. unfold checked. destruct (Z.leb_spec lo v), (Z.leb_spec v hi); try lia. reflexivity. Qed.

Section Grow.
  Variables lo hi : Z.
  (** the range of an unsigned or of a signed type *)
  Hypothesis TY : (1 <= hi /\ (lo = 0 \/ lo <= - hi))%Z.
  Let addM := iadd Checks lo hi.
  Let mulM := imul Checks lo hi.
  Let fmaM := ifma Checks lo hi.
  Let addM' := fun x y : Z => Ok (x + y)%Z.
  Let mulM' := fun x y : Z => Ok (x * y)%Z.
  Let fmaM' := fun x y z : Z => Ok (x * y + z)%Z.
  Local Notation zero := 0%Z.
  Local Notation one := 1%Z.

  (** a bounds the size of x *)
  Definition Rm (x a : Z) : Prop := (Z.abs x <= a /\ (lo = 0 -> 0 <= x))%Z.
  Definition Gm (a : Z) : Prop := (1 <= a)%Z.

  Lemma fit_Rm v a : Rm v a -> (a <= hi)%Z -> checked lo hi v = Ok v.
  Proof. intros [A B] C. apply checked_ok. destruct TY as [_ [T|T]]; [specialize (B T)|]; lia. Qed.
  Lemma Rm_add x a y c : Rm x a -> Rm y c -> Rm (x + y) (a + c).
  Proof. intros [A B] [C D]. split; [lia|]. intros E. specialize (B E). specialize (D E). lia. Qed.
  Lemma Rm_mul x a y c : Rm x a -> Rm y c -> Rm (x * y) (a * c).
  Proof.
    intros [A B] [C D]. split; [rewrite Z.abs_mul; apply Z.mul_le_mono_nonneg; lia|]. intros E. apply Z.mul_nonneg_nonneg; auto.
  Qed.
  Lemma add_fits x a y c : Rm x a -> Rm y c -> (a + c <= hi)%Z -> addM x y = Ok (x + y)%Z.
  Proof. intros H H' L. apply (fit_Rm _ (a + c)); [now apply Rm_add|exact L]. Qed.
  Lemma mul_fits x a y c : Rm x a -> Rm y c -> (a * c <= hi)%Z -> mulM x y = Ok (x * y)%Z.
  Proof. intros H H' L. apply (fit_Rm _ (a * c)); [now apply Rm_mul|exact L]. Qed.
  Lemma fma_fits x a y c z d : Rm x a -> Rm y c -> Rm z d -> (a * c + d <= hi)%Z -> fmaM x y z = Ok (x * y + z)%Z.
  Proof.
    intros H H' H2 L. unfold fmaM, ifma. pose proof (proj1 H2) as D. fold mulM. rewrite (mul_fits x a y c) by (auto; lia). cbn [bind]. fold addM.
    apply (add_fits _ (a * c) _ d); auto. now apply Rm_mul.
  Qed.
  Lemma prod_ge a c : (1 <= a -> 1 <= c -> a <= a * c /\ c <= a * c /\ 1 <= a * c)%Z. Proof. intros. nia. Qed.

  Section Block.
  Variable b : nat.
  Variable h0 : heap Z.
  Let hr := @hrel Z Z Rm Gm b h0.

  Definition bnd (h' : heap Z) : Prop := forall o u, load h' b o = Ok u -> (u <= hi)%Z.
  Definition pos (h' : heap Z) : Prop := forall c o u, load h' c o = Ok u -> (0 <= u /\ (c <> b -> 1 <= u))%Z.
  Definition grow (h1 h2 : heap Z) : Prop := forall o u, load h1 b o = Ok u -> exists u', load h2 b o = Ok u' /\ (u <= u')%Z.
  Definition crel (h h' : heap Z) : Prop := pos h' /\ (bnd h' -> hr h h').
  (** heap results *)
  Definition hok (h' : heap Z) (x y : res (heap Z)) : Prop :=
    forall h2', y = Ok h2' -> pos h2' /\ grow h' h2' /\ (bnd h2' -> exists h2, x = Ok h2 /\ hr h2 h2').
  (** element results, at least m *)
  Definition vok (P : Prop) (m : Z) (x y : res Z) : Prop :=
    forall v', y = Ok v' -> (m <= v')%Z /\ (P -> (v' <= hi)%Z -> exists v, x = Ok v /\ Rm v v').

  Lemma grow_refl h : grow h h. Proof. intros o u H. exists u. split; [exact H|lia]. Qed.
  Lemma grow_trans h1 h2 h3 : grow h1 h2 -> grow h2 h3 -> grow h1 h3.
  Proof. intros A B o u H. destruct (A o u H) as (v & V & L). destruct (B o v V) as (w & W & L'). exists w. split; [exact W|lia]. Qed.
  Lemma grow_bnd h1 h2 : grow h1 h2 -> bnd h2 -> bnd h1.
  Proof. intros A B o u H. destruct (A o u H) as (v & V & L). specialize (B o v V). lia. Qed.

  Lemma hok_ret h h' : crel h h' -> hok h' (Ok h) (Ok h').
  Proof. intros [A B] h2' E. injection E as <-. split; [exact A|]. split; [apply grow_refl|]. intros C. exists h. auto. Qed.
  Lemma hok_bind h' m m' k k' : hok h' m m' -> (forall h1 h1', grow h' h1' -> crel h1 h1' -> hok h1' (k h1) (k' h1')) -> hok h' (x <- m ;; k x) (y <- m' ;; k' y).
  Proof.
    intros M K h2' E. destruct m' as [h1'| |] eqn:E'; cbn [bind] in E; try discriminate. destruct (M h1' eq_refl) as (P1 & G1 & X1).
    set (h1 := match m with Ok t => t | _ => [] end).
    assert (C : crel h1 h1'). { split; [exact P1|]. intros B. destruct (X1 B) as (t & T & HT). unfold h1. now rewrite T. }
    destruct (K h1 h1' G1 C h2' E) as (P2 & G2 & X2). split; [exact P2|]. split; [now apply grow_trans with h1'|]. intros B.
    destruct (X1 (grow_bnd _ _ G2 B)) as (t & T & _). destruct (X2 B) as (h2 & H2 & R2). exists h2. split; [|exact R2]. unfold h1 in H2. rewrite T in *. exact H2.
  Qed.
  (** and the final bound gives Q *)
  Definition hok2 (h' : heap Z) (Q : Prop) (x y : res (heap Z)) : Prop := hok h' x y /\ forall h2', y = Ok h2' -> bnd h2' -> Q.
  Lemma hok2_bind h' Q m m' k k' : hok2 h' Q m m' -> (forall h1 h1', grow h' h1' -> crel h1 h1' -> hok h1' (k h1) (k' h1')) -> hok2 h' Q (x <- m ;; k x) (y <- m' ;; k' y).
  Proof.
    intros [M MQ] K. split; [now apply hok_bind|]. intros h2' E B. destruct m' as [h1'| |] eqn:E'; cbn [bind] in E; try discriminate. apply (MQ h1' eq_refl).
    destruct (M h1' eq_refl) as (P1 & G1 & X1). set (h1 := match m with Ok t => t | _ => [] end).
    assert (C : crel h1 h1'). { split; [exact P1|]. intros B1. destruct (X1 B1) as (t & T & HT). unfold h1. now rewrite T. }
    destruct (K h1 h1' G1 C h2' E) as (P2 & G2 & X2). exact (grow_bnd _ _ G2 B).
  Qed.
  Lemma hok_same {A} h' (m : res A) k k' : (forall x, m = Ok x -> hok h' (k x) (k' x)) -> hok h' (x <- m ;; k x) (y <- m ;; k' y).
  Proof. intros K. destruct m as [x| |]; cbn [bind]; [now apply K| |]; intros h2' E; discriminate. Qed.

  (** a value, then a heap that bounds it *)
  Lemma hok_val h' P m0 m m' k k' : vok P m0 m m' -> (forall v v', (m0 <= v')%Z -> (P -> (v' <= hi)%Z -> Rm v v') -> hok2 h' (P /\ (v' <= hi)%Z) (k v) (k' v')) ->
    hok h' (x <- m ;; k x) (y <- m' ;; k' y).
  Proof.
    intros M K h2' E. destruct m' as [v'| |] eqn:E'; cbn [bind] in E; try discriminate. destruct (M v' eq_refl) as (L & X).
    set (v := match m with Ok t => t | _ => 0%Z end).
    assert (C : P -> (v' <= hi)%Z -> Rm v v'). { intros p l. destruct (X p l) as (t & T & HT). unfold v. now rewrite T. }
    destruct (K v v' L C) as [K1 K2]. destruct (K1 h2' E) as (P2 & G2 & X2). split; [exact P2|]. split; [exact G2|]. intros B.
    destruct (K2 h2' E B) as [p l]. destruct (X p l) as (t & T & _). destruct (X2 B) as (h2 & H2 & R2). exists h2. split; [|exact R2]. unfold v in H2. rewrite T in *. exact H2.
  Qed.
  Lemma vok_val P m0 m1 m m' k k' : vok P m0 m m' -> (forall v v', (m0 <= v')%Z -> (P -> (v' <= hi)%Z -> Rm v v') -> vok P m1 (k v) (k' v') /\
      (forall w', k' v' = Ok w' -> (w' <= hi)%Z -> (v' <= hi)%Z)) -> vok P m1 (x <- m ;; k x) (y <- m' ;; k' y).
  Proof.
    intros M K w' E. destruct m' as [v'| |] eqn:E'; cbn [bind] in E; try discriminate. destruct (M v' eq_refl) as (L & X).
    set (v := match m with Ok t => t | _ => 0%Z end).
    assert (C : P -> (v' <= hi)%Z -> Rm v v'). { intros p l. destruct (X p l) as (t & T & HT). unfold v. now rewrite T. }
    destruct (K v v' L C) as [K1 K2]. destruct (K1 w' E) as (L2 & X2). split; [exact L2|]. intros p B.
    destruct (X p (K2 w' E B)) as (t & T & _). destruct (X2 p B) as (w & W & RW). exists w. split; [|exact RW]. unfold v in W. rewrite T in *. exact W.
  Qed.

  (** reading and writing *)
  Lemma vok_src h h' p : crel h h' -> fst p <> b -> vok (bnd h') 1 (ld h p) (ld h' p).
  Proof.
    intros [A B] N v' E. split; [exact (proj2 (A _ _ _ E) N)|]. intros C _. destruct (B C) as (_ & H & _). specialize (H (fst p) (snd p)).
    unfold ld in *. rewrite E in H. destruct (load h (fst p) (snd p)) as [v| |]; cbn in H; try tauto. exists v. tauto.
  Qed.
  Lemma hok_upd h h' p (v v' : Z) f f' : crel h h' -> fst p = b ->
    (forall y y', (0 <= y')%Z -> (bnd h' -> Rm y y') -> exists w', f' y' = Ok w' /\ (y' <= w')%Z /\ (bnd h' -> (w' <= hi)%Z -> exists w, f y = Ok w /\ Rm w w')) ->
    hok h' (y <- ld h p ;; w <- f y ;; st h p w) (y <- ld h' p ;; w <- f' y ;; st h' p w).
  Proof.
    intros [A B] D K h2' E. destruct p as [c o]; cbn [fst] in D; subst c. unfold ld, st in *. cbn [fst snd] in *.
    destruct (load h' b o) as [y'| |] eqn:E1; cbn [bind] in E; try discriminate.
    assert (K' := fun y Y => K y y' (proj1 (A _ _ _ E1)) Y).
    destruct (K' (match load h b o with Ok y => y | _ => 0%Z end)) as (w' & E2 & L & X).
    { intros C. destruct (B C) as (_ & H & _). specialize (H b o). rewrite E1 in H. destruct (load h b o); cbn in H; tauto. }
    rewrite E2 in E. cbn [bind] in E.
    assert (GR : grow h' h2').
    { intros o1 u U. rewrite (load_store _ _ _ _ _ E). destruct ((b =? b) && (o1 =? o)) eqn:Q.
      - exists w'. split; [reflexivity|]. apply andb_prop in Q as [_ Q]. apply Nat.eqb_eq in Q. subst o1. rewrite E1 in U. injection U as <-. exact L.
      - exists u. split; [exact U|lia]. }
    split; [|split; [exact GR|]].
    - intros c o1 u U. rewrite (load_store _ _ _ _ _ E) in U. destruct ((c =? b) && (o1 =? o)) eqn:Q; [|now apply (A c o1)].
      injection U as <-. pose proof (proj1 (A _ _ _ E1)). split; [lia|]. apply andb_prop in Q as [Q _]. apply Nat.eqb_eq in Q. intros N. contradiction.
    - intros C. pose proof (grow_bnd _ _ GR C) as C1. specialize (B C1). pose proof (proj1 (proj2 B) b o) as Q. rewrite E1 in Q.
      destruct (load h b o) as [y| |]; cbn in Q; try tauto. destruct (X C1 (C o w' (load_store_same _ _ _ _ _ E))) as (w & F & RW). cbn [bind]. rewrite F. cbn [bind].
      pose proof (hrel_st Rm Gm 0%Z Z.add Z.mul (fun x _ _ => x) 0%Z Z.add Z.mul b h0 h h' (b, o) w w' B eq_refl RW) as S. unfold st in S. cbn [fst snd] in S. rewrite E in S.
      destruct (store h b o w) as [h2| |]; cbn in S; try tauto. exists h2. auto.
  Qed.
  (** after such an update the added amount is bounded too *)
  Lemma upd_bnd h' p f' (P : Z -> Prop) h2' : pos h' -> fst p = b -> (forall y' w', (0 <= y')%Z -> f' y' = Ok w' -> (w' <= hi)%Z -> P w') ->
    (y <- ld h' p ;; w <- f' y ;; st h' p w) = Ok h2' -> bnd h2' -> exists w', P w'.
  Proof.
    intros A D K E C. destruct p as [c o]; cbn [fst] in D; subst c. unfold ld, st in *. cbn [fst snd] in *.
    destruct (load h' b o) as [y'| |] eqn:E1; cbn [bind] in E; try discriminate. destruct (f' y') as [w'| |] eqn:E2; cbn [bind] in E; try discriminate.
    exists w'. apply (K y'); auto. - exact (proj1 (A _ _ _ E1)). - exact (C o w' (load_store_same _ _ _ _ _ E)).
  Qed.
  Lemma hok_bnd h' x y h2' : hok h' x y -> y = Ok h2' -> bnd h2' -> bnd h'.
  Proof. intros H E B. destruct (H h2' E) as (_ & G & _). exact (grow_bnd _ _ G B). Qed.

  Lemma hok_add_to h h' p v v' : crel h h' -> fst p = b -> (0 <= v')%Z -> (bnd h' -> (v' <= hi)%Z -> Rm v v') ->
    hok2 h' (bnd h' /\ (v' <= hi)%Z) (add_to addM h p v) (add_to addM' h' p v').
  Proof.
    intros C D L V.
    assert (H : hok h' (add_to addM h p v) (add_to addM' h' p v')).
    { unfold add_to. apply (hok_upd h h' p v v' (fun old => addM old v) (fun old => addM' old v')); auto. intros y y' Y Ry. exists (y' + v')%Z. split; [reflexivity|]. split; [lia|].
      intros B W. exists (y + v)%Z. split; [|apply Rm_add; auto; apply V; auto; lia]. apply (add_fits y y' v v'); auto. apply V; auto. lia. }
    split; [exact H|]. intros h2' E B. split; [exact (hok_bnd _ _ _ _ H E B)|]. unfold add_to in E.
    destruct (upd_bnd h' p (fun old => addM' old v') (fun _ => (v' <= hi)%Z) h2' (proj1 C) D) with (2 := E) (3 := B) as (w & W); [|exact W].
    intros y' w' Y Q W. unfold addM' in Q. injection Q as <-. lia.
  Qed.
  Lemma hok_fma h h' p c c' x x' : crel h h' -> fst p = b -> (1 <= c')%Z -> (1 <= x')%Z -> (bnd h' -> (c' <= hi)%Z -> Rm c c') -> (bnd h' -> (x' <= hi)%Z -> Rm x x') ->
    hok2 h' (bnd h' /\ (c' <= hi)%Z /\ (x' <= hi)%Z) (y <- ld h p ;; w <- fmaM c x y ;; st h p w) (y <- ld h' p ;; w <- fmaM' c' x' y ;; st h' p w).
  Proof.
    intros C D L L' V V'. pose proof (prod_ge c' x' L L') as (Q1 & Q2 & Q3).
    assert (H : hok h' (y <- ld h p ;; w <- fmaM c x y ;; st h p w) (y <- ld h' p ;; w <- fmaM' c' x' y ;; st h' p w)).
    { apply (hok_upd h h' p c c' (fun y => fmaM c x y) (fun y => fmaM' c' x' y)); auto. intros y y' Y Ry. exists (c' * x' + y')%Z. split; [reflexivity|]. split; [lia|].
      intros B W. assert (Rm c c') by (apply V; auto; lia). assert (Rm x x') by (apply V'; auto; lia). exists (c * x + y)%Z. split; [|apply Rm_add; auto; now apply Rm_mul].
      apply (fma_fits c c' x x' y y'); auto. }
    split; [exact H|]. intros h2' E B. split; [exact (hok_bnd _ _ _ _ H E B)|].
    destruct (upd_bnd h' p (fun y => fmaM' c' x' y) (fun _ => (c' <= hi /\ x' <= hi)%Z) h2' (proj1 C) D) with (2 := E) (3 := B) as (w & W); [|exact W].
    intros y' w' Y Q W. unfold fmaM' in Q. injection Q as <-. lia.
  Qed.

  (** products *)
  Lemma vok_prod h h' (C : crel h h') k : forall ps ss acc acc', Forall (fun p : ptr => fst p <> b) ps -> (1 <= acc')%Z -> (bnd h' -> (acc' <= hi)%Z -> Rm acc acc') ->
    vok (bnd h') acc' (prod_at mulM h ps ss k acc) (prod_at mulM' h' ps ss k acc').
  Proof.
    induction ps as [|p ps IH]; intros ss acc acc' F L V; cbn [prod_at].
    - intros w' E. injection E as <-. split; [lia|]. intros B W. exists acc. auto.
    - destruct ss as [|s ss]; [intros w' E; injection E as <-; split; [lia|]; intros B W; exists acc; auto|].
      inversion F as [|? ? F1 F2]; subst. apply (vok_val (bnd h') 1); [now apply vok_src|]. intros x x' L' X.
      pose proof (prod_ge acc' x' L L') as (Q1 & Q2 & Q3).
      assert (K : vok (bnd h') (acc' * x') (acc1 <- mulM acc x ;; prod_at mulM h ps ss k acc1) (acc1 <- mulM' acc' x' ;; prod_at mulM' h' ps ss k acc1)).
      { unfold mulM' at 1. cbn [bind]. intros w' E. assert (L3 : (1 <= acc' * x')%Z) by lia. split.
        - refine (proj1 (IH ss (acc * x)%Z (acc' * x')%Z F2 L3 _ w' E)). intros B W. apply Rm_mul; [apply V|apply X]; auto; lia.
        - intros B W. assert (LW : (acc' * x' <= w')%Z). { refine (proj1 (IH ss (acc * x)%Z (acc' * x')%Z F2 L3 _ w' E)). intros B' W'. apply Rm_mul; [apply V|apply X]; auto; lia. }
          rewrite (mul_fits acc acc' x x') by (try apply V; try apply X; auto; lia). cbn [bind].
          refine (proj2 (IH ss (acc * x)%Z (acc' * x')%Z F2 L3 _ w' E) B W). intros B' W'. apply Rm_mul; [apply V|apply X]; auto; lia. }
      split; [|intros w' E W; destruct (K w' E); lia]. intros w' E. destruct (K w' E) as [K1 K2]. split; [lia|exact K2].
  Qed.
  Lemma vok_prod1 h h' ps ss k : crel h h' -> Forall (fun p : ptr => fst p <> b) ps -> vok (bnd h') 1 (prod_at mulM h ps ss k one) (prod_at mulM' h' ps ss k one).
  Proof. intros C F. apply vok_prod; auto; [lia|]. intros _ _. split; lia. Qed.

  Lemma g_generic_go ps ss dst ds k : forall h h', crel h h' -> Forall (fun p : ptr => fst p <> b) ps -> fst dst = b ->
    hok h' (sop_generic_go one addM mulM h ps ss dst ds k) (sop_generic_go one addM' mulM' h' ps ss dst ds k).
  Proof.
    induction k as [|k IH]; intros h h' C F D; cbn [sop_generic_go]; [now apply hok_ret|]. apply (hok_val h' (bnd h') 1); [now apply vok_prod1|]. intros v v' L V.
    apply hok2_bind; [apply hok_add_to; auto; lia|]. intros h1 h1' _ C1. now apply IH.
  Qed.
  Lemma g_generic ps ss dst ds n h h' : crel h h' -> Forall (fun p : ptr => fst p <> b) ps -> fst dst = b ->
    hok h' (sop_generic one addM mulM h ps ss dst ds n) (sop_generic one addM' mulM' h' ps ss dst ds n).
  Proof. intros C F D. unfold sop_generic. apply hok_same. intros _ _. now apply g_generic_go. Qed.

  (** sums *)
  Lemma vok_add (P : Prop) s s' m0 m m' k k' : (0 <= s')%Z -> (P -> (s' <= hi)%Z -> Rm s s') -> (0 <= m0)%Z -> vok P m0 m m' ->
    (forall t t', (s' + m0 <= t')%Z -> (P -> (t' <= hi)%Z -> Rm t t') -> vok P t' (k t) (k' t')) ->
    vok P (s' + m0) (v <- m ;; t <- addM s v ;; k t) (v <- m' ;; t <- addM' s' v ;; k' t).
  Proof.
    intros L S L0 M K. apply (vok_val P m0); [exact M|]. intros v v' Lv V. unfold addM' at 1 2. cbn [bind].
    assert (Q : vok P (s' + v') (t <- addM s v ;; k t) (k' (s' + v')%Z)).
    { assert (KK : vok P (s' + v') (k (s + v)%Z) (k' (s' + v')%Z)). { apply K; [lia|]. intros p W. apply Rm_add; [apply S|apply V]; auto; lia. }
      intros w' E. destruct (KK w' E) as [K1 K2]. split; [exact K1|]. intros p W. rewrite (add_fits s s' v v') by (try apply S; try apply V; auto; lia). cbn [bind]. now apply K2. }
    split; [|intros w' E W; destruct (Q w' E); lia]. intros w' E. destruct (Q w' E) as [Q1 Q2]. split; [lia|exact Q2].
  Qed.
  Lemma vok_mono (P : Prop) m0 m1 x y : (m1 <= m0)%Z -> vok P m0 x y -> vok P m1 x y.
  Proof. intros L H w E. destruct (H w E). split; [lia|assumption]. Qed.
  Lemma vok_ret (P : Prop) s s' : (P -> (s' <= hi)%Z -> Rm s s') -> vok P s' (Ok s) (Ok s').
  Proof. intros S w E. injection E as <-. split; [lia|]. intros p W. exists s. auto. Qed.
  Lemma v_out0_go h h' (C : crel h h') ps ss k : Forall (fun p : ptr => fst p <> b) ps -> forall s s', (0 <= s')%Z -> (bnd h' -> (s' <= hi)%Z -> Rm s s') ->
    vok (bnd h') s' (sop_out0_go one addM mulM h ps ss k s) (sop_out0_go one addM' mulM' h' ps ss k s').
  Proof.
    intros F. induction k as [|k IH]; intros s s' L S; cbn [sop_out0_go]; [now apply vok_ret|]. apply vok_mono with (s' + 1)%Z; [lia|].
    apply vok_add; auto; [lia|now apply vok_prod1|]. intros t t' Lt X. apply IH; [lia|exact X].
  Qed.
  Lemma Rm0 : Rm 0 0. Proof. split; lia. Qed.
  Lemma hok2_hok h' Q x y : hok2 h' Q x y -> hok h' x y. Proof. now intros [H _]. Qed.
  Lemma g_out0 ps ss dst n h h' : crel h h' -> Forall (fun p : ptr => fst p <> b) ps -> fst dst = b ->
    hok h' (sop_out0 zero one addM mulM h ps ss dst n) (sop_out0 zero one addM' mulM' h' ps ss dst n).
  Proof.
    intros C F D. unfold sop_out0. apply hok_same. intros _ _. apply (hok_val h' (bnd h') 0); [apply v_out0_go; auto; [lia|intros; apply Rm0]|].
    intros v v' L V. now apply hok_add_to.
  Qed.
  Lemma hok2_imp h' (Q Q' : Prop) x y : (Q -> Q') -> hok2 h' Q x y -> hok2 h' Q' x y.
  Proof. intros I [H H']. split; [exact H|]. intros h2' E B. exact (I (H' h2' E B)). Qed.
  Lemma hok2_val h' Q P m0 m m' k k' : vok P m0 m m' ->
    (forall v v', (m0 <= v')%Z -> (P -> (v' <= hi)%Z -> Rm v v') -> hok2 h' ((P /\ (v' <= hi)%Z) /\ Q) (k v) (k' v')) -> hok2 h' Q (x <- m ;; k x) (y <- m' ;; k' y).
  Proof.
    intros M K. split; [apply (hok_val h' P m0); [exact M|]; intros v v' L V; apply (hok2_imp _ _ _ _ _ (@proj1 _ _) (K v v' L V))|].
    intros h2' E B. destruct m' as [v'| |] eqn:E'; cbn [bind] in E; try discriminate. destruct (M v' eq_refl) as (L & X).
    set (v := match m with Ok t => t | _ => 0%Z end).
    assert (C : P -> (v' <= hi)%Z -> Rm v v'). { intros p l. destruct (X p l) as (t & T & HT). unfold v. now rewrite T. }
    exact (proj2 (proj2 (K v v' L C) h2' E B)).
  Qed.
  (** y is read, updated and written, then the loop goes on *)
  Lemma bind_assoc3 {A B D E} (m : res A) (f : A -> res B) (g : A -> B -> res D) (k : D -> res E) :
    (y <- m ;; w <- f y ;; z <- g y w ;; k z) = (z <- (y <- m ;; w <- f y ;; g y w) ;; k z).
  Proof. destruct m as [y| |]; cbn [bind]; try reflexivity. now destruct (f y). Qed.

  Lemma g_muladd_go c c' : (1 <= c')%Z -> forall n h h' data dst, crel h h' -> (bnd h' -> (c' <= hi)%Z -> Rm c c') -> fst data <> b -> fst dst = b -> (0 < n) ->
    hok2 h' (bnd h' /\ (c' <= hi)%Z) (muladd_go fmaM h c data dst n) (muladd_go fmaM' h' c' data dst n).
  Proof.
    intros L. induction n as [|n IH]; intros h h' data dst C V N D P; [lia|]. cbn [muladd_go].
    apply (hok2_val h' _ (bnd h') 1); [now apply vok_src|]. intros x x' Lx X. rewrite !bind_assoc3.
    apply hok2_imp with (bnd h' /\ (c' <= hi)%Z /\ (x' <= hi)%Z); [tauto|]. apply hok2_bind; [now apply hok_fma|]. intros h1 h1' G1 C1.
    destruct n as [|n]; [now apply hok_ret|]. eapply hok2_hok. apply IH; auto; [|lia]. intros B. apply V. now apply grow_bnd with h1'.
  Qed.
  Lemma g_muladd h h' p0 p1 dst n : crel h h' -> fst p0 <> b -> fst p1 <> b -> fst dst = b ->
    hok h' (sop_muladd fmaM h p0 p1 dst n) (sop_muladd fmaM' h' p0 p1 dst n).
  Proof.
    intros C N0 N1 D. unfold sop_muladd. apply hok_same. intros x0 P. assert (0 < n) by (unfold uassert in P; destruct (Nat.ltb_spec 0 n); [assumption|discriminate]).
    apply (hok_val h' (bnd h') 1); [now apply vok_src|]. intros c c' L V. now apply g_muladd_go.
  Qed.
  Lemma v_fold h h' (C : crel h h') s n : forall p acc acc', fst p <> b -> (0 <= acc')%Z -> (bnd h' -> (acc' <= hi)%Z -> Rm acc acc') ->
    vok (bnd h') (if n =? 0 then acc' else (acc' + 1)%Z) (fold_run (fun v acc => addM acc v) h p n s acc) (fold_run (fun v acc => addM' acc v) h' p n s acc').
  Proof.
    induction n as [|n IH]; intros p acc acc' N L A; cbn [fold_run Nat.eqb]; [now apply vok_ret|].
    apply vok_add; auto; [lia|now apply vok_src|]. intros t t' Lt X. eapply vok_mono; [|apply IH; auto; lia]. destruct (n =? 0); lia.
  Qed.
  Lemma g_scaled h h' p0 p1 dst n : crel h h' -> fst p0 <> b -> fst p1 <> b -> fst dst = b ->
    hok h' (sop_scaled zero addM fmaM h p0 p1 dst n) (sop_scaled zero addM' fmaM' h' p0 p1 dst n).
  Proof.
    intros C N0 N1 D. unfold sop_scaled. apply hok_same. intros x0 P. assert (0 < n) by (unfold uassert in P; destruct (Nat.ltb_spec 0 n); [assumption|discriminate]).
    apply (hok_val h' (bnd h') 1); [now apply vok_src|]. intros c c' L V.
    apply (hok2_val h' _ (bnd h') 1); [eapply vok_mono; [|apply (v_fold h h' C); auto; [lia|intros; apply Rm0]]; destruct (Nat.eqb_spec n 0); lia|]. intros x x' Lx X.
    eapply hok2_imp; [|now apply hok_fma]. tauto.
  Qed.
  (** product of two loaded factors *)
  Lemma v_mul2 h h' p0 p1 m1 k k' : crel h h' -> fst p0 <> b -> fst p1 <> b -> 
    (forall v v', (1 <= v')%Z -> (bnd h' -> (v' <= hi)%Z -> Rm v v') -> vok (bnd h') m1 (k v) (k' v') /\ (forall w', k' v' = Ok w' -> (w' <= hi)%Z -> (v' <= hi)%Z)) ->
    vok (bnd h') m1 (x <- ld h p0 ;; y <- ld h p1 ;; v <- mulM x y ;; k v) (x <- ld h' p0 ;; y <- ld h' p1 ;; v <- mulM' x y ;; k' v).
  Proof.
    intros C N0 N1 K.
    replace (x <- ld h p0 ;; y <- ld h p1 ;; v <- mulM x y ;; k v) with (v <- (x <- ld h p0 ;; y <- ld h p1 ;; mulM x y) ;; k v)
      by (destruct (ld h p0); cbn [bind]; [|reflexivity..]; now destruct (ld h p1)).
    replace (x <- ld h' p0 ;; y <- ld h' p1 ;; v <- mulM' x y ;; k' v) with (v <- (x <- ld h' p0 ;; y <- ld h' p1 ;; mulM' x y) ;; k' v)
      by (destruct (ld h' p0); cbn [bind]; [|reflexivity..]; now destruct (ld h' p1)).
    apply (vok_val (bnd h') 1); [|exact K].
    intros w' E. destruct (ld h' p0) as [x'| |] eqn:E0; cbn [bind] in E; try discriminate. destruct (ld h' p1) as [y'| |] eqn:E1; cbn [bind] in E; try discriminate.
    unfold mulM' in E. injection E as <-. destruct (vok_src h h' p0 C N0 x' E0) as [L0 X0]. destruct (vok_src h h' p1 C N1 y' E1) as [L1 X1].
    pose proof (prod_ge x' y' L0 L1) as (Q1 & Q2 & Q3). split; [exact Q3|]. intros B W.
    destruct (X0 B ltac:(lia)) as (x & -> & Rx). destruct (X1 B ltac:(lia)) as (y & -> & Ry). cbn [bind]. exists (x * y)%Z. split; [apply (mul_fits x x' y y'); auto|now apply Rm_mul].
  Qed.
  Lemma v_dot_go h h' (C : crel h h') s0 s1 n : forall p0 p1 acc acc', fst p0 <> b -> fst p1 <> b -> (0 <= acc')%Z -> (bnd h' -> (acc' <= hi)%Z -> Rm acc acc') ->
    vok (bnd h') acc' (dot_go addM mulM h p0 s0 p1 s1 n acc) (dot_go addM' mulM' h' p0 s0 p1 s1 n acc').
  Proof.
    induction n as [|n IH]; intros p0 p1 acc acc' N0 N1 L A; cbn [dot_go]; [now apply vok_ret|].
    apply v_mul2; auto. intros v v' Lv V.
    assert (K : vok (bnd h') (acc' + v') (s <- addM acc v ;; dot_go addM mulM h (padd p0 s0) s0 (padd p1 s1) s1 n s) (dot_go addM' mulM' h' (padd p0 s0) s0 (padd p1 s1) s1 n (acc' + v')%Z)).
    { assert (KK : vok (bnd h') (acc' + v') (dot_go addM mulM h (padd p0 s0) s0 (padd p1 s1) s1 n (acc + v)%Z) (dot_go addM' mulM' h' (padd p0 s0) s0 (padd p1 s1) s1 n (acc' + v')%Z)).
      { apply IH; auto; [lia|]. intros B W. apply Rm_add; [apply A|apply V]; auto; lia. }
      intros w' E. destruct (KK w' E) as [K1 K2]. split; [exact K1|]. intros B W. rewrite (add_fits acc acc' v v') by (try apply A; try apply V; auto; lia). cbn [bind]. now apply K2. }
    unfold addM' at 1 2. cbn [bind]. split; [apply vok_mono with (acc' + v')%Z; [lia|exact K]|]. intros w' E W. destruct (K w' E). lia.
  Qed.
  Lemma g_strided_dot h h' p0 s0 p1 s1 dst n : crel h h' -> fst p0 <> b -> fst p1 <> b -> fst dst = b ->
    hok h' (strided_dot zero addM mulM h p0 s0 p1 s1 dst n) (strided_dot zero addM' mulM' h' p0 s0 p1 s1 dst n).
  Proof.
    intros C N0 N1 D. unfold strided_dot. apply (hok_val h' (bnd h') 0); [apply v_dot_go; auto; [lia|intros; apply Rm0]|]. intros v v' L V. now apply hok_add_to.
  Qed.
  Lemma g_111_go n : forall h h' p0 p1 dst, crel h h' -> fst p0 <> b -> fst p1 <> b -> fst dst = b ->
    hok h' (sop_111_go addM mulM h p0 p1 dst n) (sop_111_go addM' mulM' h' p0 p1 dst n).
  Proof.
    induction n as [|n IH]; intros h h' p0 p1 dst C N0 N1 D; cbn [sop_111_go]; [now apply hok_ret|].
    apply (hok_val h' (bnd h') 1); [now apply vok_src|]. intros x x' Lx X. apply (hok2_val h' _ (bnd h') 1); [now apply vok_src|]. intros y y' Ly Y.
    pose proof (prod_ge x' y' Lx Ly) as (Q1 & Q2 & Q3).
    apply hok2_imp with (bnd h' /\ (x' * y' <= hi)%Z); [intros [H H']; repeat split; auto; lia|].
    assert (M : vok (bnd h') (x' * y') (mulM x y) (mulM' x' y')).
    { intros w' E. unfold mulM' in E. injection E as <-. split; [lia|]. intros B W. assert (Rm x x') by (apply X; auto; lia). assert (Rm y y') by (apply Y; auto; lia).
      exists (x * y)%Z. split; [apply (mul_fits x x' y y'); auto|now apply Rm_mul]. }
    apply (hok2_val h' _ (bnd h') (x' * y')); [exact M|]. intros v v' Lv V. apply hok2_imp with (bnd h' /\ (v' <= hi)%Z); [intros [H H']; repeat split; auto; lia|].
    apply hok2_bind; [apply hok_add_to; auto; lia|]. intros h1 h1' _ C1. apply IH; auto.
  Qed.

  Definition gsop (f f' : heap Z -> list ptr -> list nat -> ptr -> nat -> nat -> res (heap Z)) : Prop :=
    forall h h' ps ss dst ds n, crel h h' -> Forall (fun p : ptr => fst p <> b) ps -> fst dst = b -> hok h' (f h ps ss dst ds n) (f' h' ps ss dst ds n).
  Lemma g_slice : gsop (sop_slice zero one addM mulM) (sop_slice zero one addM' mulM').
  Proof. intros h h' ps ss dst ds n H F D. unfold sop_slice. destruct (ds =? 0); [now apply g_out0|now apply g_generic]. Qed.
  Lemma g_two h h' p0 s0 p1 s1 dst ds n : crel h h' -> fst p0 <> b -> fst p1 <> b -> fst dst = b ->
    hok h' (sop_two zero one addM mulM fmaM h p0 s0 p1 s1 dst ds n) (sop_two zero one addM' mulM' fmaM' h' p0 s0 p1 s1 dst ds n).
  Proof.
    intros H N0 N1 D. unfold sop_two. assert (Fp : Forall (fun p : ptr => fst p <> b) [p0; p1]) by auto.
    assert (DEF : hok h' (if ds =? 0 then sop_out0 zero one addM mulM h [p0; p1] [s0; s1] dst n else sop_generic one addM mulM h [p0; p1] [s0; s1] dst ds n)
      (if ds =? 0 then sop_out0 zero one addM' mulM' h' [p0; p1] [s0; s1] dst n else sop_generic one addM' mulM' h' [p0; p1] [s0; s1] dst ds n)).
    { destruct (ds =? 0); [now apply g_out0|now apply g_generic]. }
    cbv zeta. destruct (_ + _ + _) as [|[|[|[|[|[|[|[|k]]]]]]]]; try exact DEF.
    - now apply g_scaled.
    - now apply g_muladd.
    - now apply g_scaled.
    - now apply g_muladd.
    - apply hok_same. intros _ _. now apply g_strided_dot.
    - unfold sop_111. apply hok_same. intros _ _. now apply g_111_go.
  Qed.
  Lemma g_fixed : gsop (sop_fixed zero one addM mulM fmaM) (sop_fixed zero one addM' mulM' fmaM').
  Proof.
    intros h h' ps ss dst ds n H F D. unfold sop_fixed.
    assert (DEF : hok h' (if ds =? 0 then sop_out0 zero one addM mulM h ps ss dst n else sop_generic one addM mulM h ps ss dst ds n)
      (if ds =? 0 then sop_out0 zero one addM' mulM' h' ps ss dst n else sop_generic one addM' mulM' h' ps ss dst ds n)).
    { destruct (ds =? 0); [now apply g_out0|now apply g_generic]. }
    destruct ps as [|p0 [|p1 [|? ?]]]; try exact DEF. destruct ss as [|s0 [|s1 [|? ?]]]; try exact DEF.
    inversion F as [|? ? F1 F2]; subst. inversion F2; subst. now apply g_two.
  Qed.
  Lemma g_call f f' : gsop f f' -> forall h h' bases dst offs inner n, crel h h' -> Forall (fun p : ptr => fst p <> b) bases -> fst dst = b ->
    hok h' (call_sop f h bases dst offs inner n) (call_sop f' h' bases dst offs inner n).
  Proof. intros F h h' bases dst offs inner n H B D. unfold call_sop. apply F; [exact H|now apply padds_src|exact D]. Qed.
  Lemma g_unspec_go bases dst inner n0 : Forall (fun p : ptr => fst p <> b) bases -> fst dst = b -> forall k g h h', crel h h' ->
    hok h' (unspec_go zero one addM mulM k g h bases dst inner n0) (unspec_go zero one addM' mulM' k g h' bases dst inner n0).
  Proof.
    intros B D. induction k as [|k IH]; intros g h h' H; cbn [unspec_go]; [now apply hok_ret|]. apply hok_bind; [apply (g_call _ _ g_slice); auto|].
    intros h1 h1' _ H1. apply hok_same. intros g' _. now apply IH.
  Qed.
  Lemma g_for_each {A} (f f' : A -> heap Z -> res (heap Z)) l : (forall x h h', crel h h' -> hok h' (f x h) (f' x h')) ->
    forall h h', crel h h' -> hok h' (for_each f l h) (for_each f' l h').
  Proof. intros F. induction l as [|x l IH]; intros h h' C; cbn [for_each]; [now apply hok_ret|]. apply hok_bind; auto. Qed.
  Lemma g_run h h' bases strides sh dst : crel h h' -> Forall (fun p : ptr => fst p <> b) bases -> fst dst = b ->
    hok h' (run_einsum zero one addM mulM fmaM h bases strides sh dst) (run_einsum zero one addM' mulM' fmaM' h' bases strides sh dst).
  Proof.
    intros C B D. unfold run_einsum.
    assert (DEF : hok h' (unspecialized zero one addM mulM h bases strides sh dst) (unspecialized zero one addM' mulM' h' bases strides sh dst)).
    { unfold unspecialized. destruct strides; [intros ? ?; discriminate|]. destruct sh; [intros ? ?; discriminate|]. apply hok_same. intros g _. now apply g_unspec_go. }
    destruct ((length bases =? 1) || (length bases =? 2)); [|exact DEF].
    destruct strides as [|d0 [|d1 [|d2 [|? ?]]]]; try exact DEF; destruct sh as [|n0 [|n1 [|n2 [|? ?]]]]; try exact DEF.
    - unfold einsum_2labels. do 2 (apply hok_same; intros _ _). apply g_for_each; [|exact C]. intros i t t' E. now apply (g_call _ _ g_fixed).
    - unfold einsum_3labels. do 3 (apply hok_same; intros _ _). apply g_for_each; [|exact C]. intros i t t' E. apply g_for_each; [|exact E]. intros j u u' E'. now apply (g_call _ _ g_fixed).
  Qed.
  Lemma g_matvec_go rs s v t cols : fst v <> b -> forall rows h h' row dst, crel h h' -> fst row <> b -> fst dst = b ->
    hok h' (matvec_go zero addM mulM h row rs s v t dst cols rows) (matvec_go zero addM' mulM' h' row rs s v t dst cols rows).
  Proof.
    intros V. induction rows as [|rows IH]; intros h h' row dst H N D; cbn [matvec_go]; [now apply hok_ret|]. apply hok_bind; [now apply g_strided_dot|].
    intros h1 h1' _ H1. apply IH; auto.
  Qed.
  Lemma hr_pos h h' : hr h h' -> pos h'.
  Proof.
    intros (_ & H & _) c o u E. specialize (H c o). rewrite E in H. destruct (load h c o) as [x| |]; cbn in H; try tauto. destruct H as [[H1 _] H2]. split; [lia|exact H2].
  Qed.
  (** filling first *)
  Lemma g_into h h' ops subs out rst dst h2' : hr h h' -> Forall (fun a => a_blk a <> b) ops -> fst dst = b ->
    einsum_into_ptr zero one addM' mulM' fmaM' h' ops subs out rst dst = Ok h2' -> bnd h2' ->
    exists h2, einsum_into_ptr zero one addM mulM fmaM h ops subs out rst dst = Ok h2 /\ hr h2 h2'.
  Proof.
    intros H B D E BN. unfold einsum_into_ptr in *. destruct (prepare_einsum ops subs out) as [[[st0 sh] osh]| |]; cbn [bind] in *; try discriminate.
    destruct (match has_uniform_stride osh rst with Some s => guard (s =? 1) | None => Ok tt end) as [[]| |]; cbn [bind] in *; try discriminate.
    pose proof (r_fill Rm Gm 0%Z Z.add Z.mul (fun x _ _ => x) 0%Z Z.add Z.mul Rm0 b h0 osh rst (prod osh) h h' dst H D) as RF.
    destruct (k_fill h' dst osh rst (prod osh) 0%Z) as [h1'| |]; cbn [bind] in E; try discriminate.
    destruct (k_fill h dst osh rst (prod osh) 0%Z) as [h1| |]; cbn in RF; try tauto. cbn [bind].
    assert (C : crel h1 h1'). { split; [|auto]. apply (hr_pos h1 h1' RF). }
    refine (proj2 (proj2 (g_run h1 h1' (map a_ptr ops) st0 sh dst C _ D h2' E)) BN). rewrite Forall_map. exact B.
  Qed.
  End Block.

  Lemma alloc_hr h h' n : cells Rm Gm h h' -> hrel Rm Gm (length h) h (h ++ [Some (repeat 0%Z n)]) (h' ++ [Some (repeat 0%Z n)]).
  Proof. intros C. apply top_alloc; [exact Rm0|exact C]. Qed.
  Lemma alloc_crel h h' n : cells Rm Gm h h' -> crel (length h) h (h ++ [Some (repeat 0%Z n)]) (h' ++ [Some (repeat 0%Z n)]).
  Proof. intros C. pose proof (alloc_hr h h' n C) as H. split; [exact (hr_pos _ _ _ _ H)|auto]. Qed.

  Ltac fin2 E2 := match type of E2 with _ = Ok ?h2 => exists h2; match goal with |- bind ?x _ = _ => replace x with (Ok h2) by (symmetry; exact E2) end; reflexivity end.
  Section Tops.
  Variables (h h' : heap Z).
  Hypothesis C : cells Rm Gm h h'.
  Lemma n_dot a c h2' r : a_blk a < length h -> a_blk c < length h -> nd_dot zero addM' mulM' h' a c = Ok (h2', r) -> bnd (length h) h2' ->
    exists h2, nd_dot zero addM mulM h a c = Ok (h2, r).
  Proof.
    intros A B. unfold nd_dot. destruct (a_shape a) as [|n [|? ?]]; try discriminate. destruct (a_shape c) as [|m [|? ?]]; try discriminate.
    destruct (a_stride a) as [|s [|? ?]]; try discriminate. destruct (a_stride c) as [|t [|? ?]]; try discriminate. destruct (guard (n =? m)); try discriminate. cbn [bind].
    cbn [nd_scalar nd_full prod fold_right repeat length Nat.eqb negb guard bind from_buffer alloc]. rewrite <- (proj1 C). intros E BN.
    match type of E with bind ?y _ = _ => destruct y as [h3| |] eqn:E3; cbn [bind] in E; try discriminate end. injection E as -> <-.
    destruct (g_strided_dot (length h) h _ _ (a_ptr a) s (a_ptr c) t (length h, 0) n (alloc_crel h h' 1 C)) with (h2' := h2') as (_ & _ & X); [cbn; lia|cbn; lia|reflexivity|exact E3|].
    destruct (X BN) as (h2 & E2 & _). fin2 E2.
  Qed.
  Lemma n_matmul a c h2' r : a_blk a < length h -> a_blk c < length h -> nd_matmul zero one addM' mulM' fmaM' h' a c = Ok (h2', r) -> bnd (length h) h2' ->
    exists h2, nd_matmul zero one addM mulM fmaM h a c = Ok (h2, r).
  Proof.
    intros A B. pose proof (n_dot a c h2' r A B) as DOT. unfold nd_matmul.
    destruct (a_shape a) as [|n [|k [|? ?]]]; try discriminate; (destruct (a_shape c) as [|m [|? [|? ?]]]; try discriminate); try exact DOT; clear DOT.
    - destruct (guard (k =? m)); try discriminate. cbn [bind]. destruct (a_stride a) as [|rs [|s [|? ?]]]; try discriminate. destruct (a_stride c) as [|t [|? ?]]; try discriminate.
      cbn [alloc]. rewrite <- (proj1 C). intros E BN. match type of E with bind ?y _ = _ => destruct y as [h3| |] eqn:E3; cbn [bind] in E; try discriminate end. injection E as -> <-.
      destruct (g_matvec_go (length h) h rs s (a_ptr c) t k ltac:(cbn; lia) n _ _ (a_ptr a) (length h, 0) (alloc_crel h h' n C)) with (h2' := h2') as (_ & _ & X); [cbn; lia|reflexivity|exact E3|].
      destruct (X BN) as (h2 & E2 & _). fin2 E2.
    - match goal with |- context [guard ?g] => destruct (guard g); try discriminate end. cbn [bind]. unfold nd_full. rewrite !repeat_length.
      match goal with |- context [guard ?g] => destruct (guard g); try discriminate end. cbn [bind from_buffer alloc]. rewrite !repeat_length, <- (proj1 C).
      unfold matrix_matrix. intros E BN. match type of E with bind ?y _ = _ => destruct y as [h3| |] eqn:E3; cbn [bind] in E; try discriminate end. injection E as -> <-.
      pose proof (fun F D => g_into (length h) h _ _ _ _ _ _ _ h2' (alloc_hr h h' _ C) F D E3 BN) as X.
      destruct X as (h2 & E2 & _); [repeat constructor; lia|reflexivity|]. fin2 E2.
  Qed.
  Lemma n_einsum ops subs out h2' r : Forall (fun a => a_blk a < length h) ops -> nd_einsum zero one addM' mulM' fmaM' h' ops subs out = Ok (h2', r) -> bnd (length h) h2' ->
    exists h2, nd_einsum zero one addM mulM fmaM h ops subs out = Ok (h2, r).
  Proof.
    intros A. unfold nd_einsum. destruct (prepare_einsum ops subs out) as [[[st0 sh] osh]| |]; cbn [bind]; try discriminate. cbn [alloc]. rewrite <- (proj1 C). intros E BN.
    match type of E with bind ?y _ = _ => destruct y as [h3| |] eqn:E3; cbn [bind] in E; try discriminate end. injection E as -> <-.
    destruct (g_run (length h) h _ _ (map a_ptr ops) st0 sh (length h, 0) (alloc_crel h h' (prod osh) C)) with (h2' := h2') as (_ & _ & X); [now apply lt_blk|reflexivity|exact E3|].
    destruct (X BN) as (h2 & E2 & _). fin2 E2.
  Qed.
  End Tops.

  (** bmm fills and computes one matrix after the other *)
  Lemma g_bmm_go b h0 sa sb n k m : 0 < n -> 0 < k -> 0 < m -> is_csr 0%Z 1%Z Z.add Z.mul -> forall cnt h h' o a1 a2 (v1 v2 : nat -> list nat -> Z),
    hrel Rm Gm b h0 h h' -> bnd b h' ->
    a_shape a1 = [n; k] -> a_shape a2 = [k; m] -> a_blk a1 <> b -> a_blk a2 <> b ->
    (forall t, t < cnt -> holds h' (shift_arr a1 (t * sa)) (v1 t)) -> (forall t, t < cnt -> holds h' (shift_arr a2 (t * sb)) (v2 t)) ->
    (forall x, x < cnt * (n * m) -> exists y, load h' b (o + x) = Ok y) ->
    (forall t i j, t < cnt -> i < n -> j < m -> (bigsum Z.add 0 (map (fun s => v1 t [i; s] * v2 t [s; j]) (seq 0 k)) <= hi)%Z) ->
    exists h2, bmm_go zero one addM mulM fmaM h a1 a2 sa sb [m; 1] (n * m) (b, o) cnt = Ok h2.
  Proof.
    intros N K M CSR. induction cnt as [|cnt IH]; intros h h' o a1 a2 v1 v2 HR BN S1 S2 B1 B2 H1 H2 D BD; cbn [bmm_go]; [eauto|].
    assert (Z1 : holds h' a1 (v1 0)) by (rewrite <- (shift_0 a1); apply (H1 0); lia).
    assert (Z2 : holds h' a2 (v2 0)) by (rewrite <- (shift_0 a2); apply (H2 0); lia).
    destruct (matrix_matrix_ok 0%Z 1%Z Z.add Z.mul CSR h' b o a1 a2 (v1 0) (v2 0) n k m S1 S2 N K M Z1 Z2 B1 B2) as (h1' & E1 & L1 & A1 & A2 & A3).
    { intros x X. apply D. cbn [Nat.mul]. lia. }
    assert (BN1 : bnd b h1').
    { intros x u U. destruct (Nat.lt_ge_cases x o) as [X|X]; [rewrite A2 in U by lia; now apply (BN x)|]. destruct (Nat.lt_ge_cases x (o + n * m)) as [Y|Y]; [|rewrite A2 in U by lia; now apply (BN x)].
      assert (QI : (x - o) / m < n) by (apply Nat.div_lt_upper_bound; nia). assert (QJ : (x - o) mod m < m) by (apply Nat.mod_upper_bound; lia).
      pose proof (A3 _ _ QI QJ) as Q. pose proof (Nat.div_mod (x - o) m ltac:(lia)) as DM.
      replace (o + ((x - o) / m * m + (x - o) mod m)) with x in Q by lia. rewrite U in Q. injection Q as ->. apply BD; auto. lia. }
    unfold matrix_matrix in E1. pose proof (fun F D => g_into b h0 h h' _ _ _ _ (b, o) h1' HR F D E1 BN1) as X. destruct X as (h1 & E1' & HR1); [repeat constructor; auto|reflexivity|].
    unfold matrix_matrix. rewrite E1'. cbn [bind padd fst snd].
    apply (IH h1 h1' (o + n * m) (shift_arr a1 sa) (shift_arr a2 sb) (fun t => v1 (S t)) (fun t => v2 (S t))); auto.
    - intros t X. rewrite shift_shift. apply holds_ext with h'.
      + cbn [shift_arr a_shape]. rewrite S1. auto.
      + intros x. now apply A1.
      + apply (H1 (S t)). lia.
    - intros t X. rewrite shift_shift. apply holds_ext with h'.
      + cbn [shift_arr a_shape]. rewrite S2. auto.
      + intros x. now apply A1.
      + apply (H2 (S t)). lia.
    - intros x X. rewrite <- Nat.add_assoc. rewrite A2 by lia. apply D. cbn [Nat.mul]. lia.
    - intros t i j X I J. apply (BD (S t)); auto. lia.
  Qed.
  Lemma n_bmm h h' a c va vc q n k m : cells Rm Gm h h' -> is_csr 0%Z 1%Z Z.add Z.mul ->
    a_shape a = [q; n; k] -> a_shape c = [q; k; m] -> 0 < q -> 0 < n -> 0 < k -> 0 < m -> holds h' a va -> holds h' c vc ->
    (forall t i j, t < q -> i < n -> j < m -> (bigsum Z.add 0 (map (fun s => va [t; i; s] * vc [t; s; j]) (seq 0 k)) <= hi)%Z) ->
    exists h2 r, nd_bmm zero one addM mulM fmaM h a c = Ok (h2, r).
  Proof.
    intros C CSR Sa Sb Q N K M Ha Hb BD. unfold nd_bmm. rewrite Sa, Sb.
    pose proof (holds_live h' a va ltac:(rewrite Sa; auto) Ha) as La. pose proof (holds_live h' c vc ltac:(rewrite Sb; auto) Hb) as Lb. rewrite <- (proj1 C) in La, Lb.
    rewrite Nat.eqb_refl. cbn [guard bind]. unfold nd_full. rewrite repeat_length.
    assert (PP : prod [q; n; m] = q * (n * m)) by (cbn; lia). rewrite PP. rewrite (proj2 (Nat.eqb_neq _ _)) by nia. cbn [negb guard bind from_buffer alloc].
    rewrite repeat_length. set (r := fresh_arr (length h) (q * (n * m)) [q; n; m]).
    assert (ER : a_stride r = [n * m; m; 1]). { unfold r. cbn [fresh_arr a_stride]. rewrite stride_from_shape_rm. cbn [rm_stride prod fold_right]. now rewrite Nat.mul_1_r. }
    rewrite ER.
    assert (SL : forall (d : arr) v x y z, a_shape d = [x; y; z] -> 0 < x -> 0 < y -> 0 < z -> holds h' d v ->
       exists s0 s1 s2 l f, a_stride d = [s0; s1; s2] /\ nd_slice_along d 0 (IUsize 0) = Ok (mkArr (a_blk d) (a_off d) l l [y; z] [s1; s2] f)).
    { intros d v x y z Sc X Y Z0 [Lc _]. rewrite Sc in Lc. destruct (a_stride d) as [|s0 [|s1 [|s2 [|? ?]]]] eqn:Ec; try discriminate.
      unfold nd_slice_along. rewrite Sc, Ec. change (as_absolute 0 (length [x; y; z])) with (Ok 0).
      cbn [bind vget nth_error index_collapses vremove index_first].
      destruct (strided_len_ok [y; z] [s1; s2] eq_refl) as (l & El & _).
      { intros u [<-|[<-|[]]]; assumption. }
      exists s0, s1, s2, l. eexists. split; [reflexivity|]. rewrite El. cbn [bind]. rewrite Nat.mul_0_r, Nat.add_0_r. reflexivity. }
    destruct (SL a va q n k Sa Q N K Ha) as (a0 & a1 & a2 & la & fa & Ea & ->).
    destruct (SL c vc q k m Sb Q K M Hb) as (b0 & b1 & b2 & lb & fb & Eb & ->). clear SL. cbn [bind]. rewrite Ea, Eb. cbn [vget nth_error bind tl].
    destruct (g_bmm_go (length h) h a0 b0 n k m N K M CSR q (h ++ [Some (repeat 0%Z (q * (n * m)))]) (h' ++ [Some (repeat 0%Z (q * (n * m)))]) 0
       (mkArr (a_blk a) (a_off a) la la [n; k] [a1; a2] fa) (mkArr (a_blk c) (a_off c) lb lb [k; m] [b1; b2] fb) (fun t idx => va (t :: idx)) (fun t idx => vc (t :: idx))) as (h2 & E).
    - now apply alloc_hr.
    - intros o u U. rewrite (proj1 C), load_app_new in U. destruct (nth_error (repeat 0%Z (q * (n * m))) o) as [w|] eqn:W; [|discriminate]. injection U as <-.
      apply nth_error_In, repeat_spec in W. lia.
    - reflexivity.
    - reflexivity.
    - cbn. lia.
    - cbn. lia.
    - intros t X. split; [reflexivity|]. cbn [shift_arr a_shape]. intros idx R. destruct Ha as [_ Ha]. rewrite Sa in Ha. specialize (Ha (t :: idx) ltac:(constructor; assumption)).
      unfold get in *. rewrite Ea in Ha. cbn [dot] in Ha. cbn [shift_arr a_blk a_off a_stride]. rewrite load_app_old by (rewrite <- (proj1 C); exact La). rewrite <- Ha. f_equal. lia.
    - intros t X. split; [reflexivity|]. cbn [shift_arr a_shape]. intros idx R. destruct Hb as [_ Hb]. rewrite Sb in Hb. specialize (Hb (t :: idx) ltac:(constructor; assumption)).
      unfold get in *. rewrite Eb in Hb. cbn [dot] in Hb. cbn [shift_arr a_blk a_off a_stride]. rewrite load_app_old by (rewrite <- (proj1 C); exact Lb). rewrite <- Hb. f_equal. lia.
    - intros x X. exists 0%Z. cbn [plus]. rewrite (proj1 C), load_app_new. now rewrite nth_error_repeat by exact X.
    - exact BD.
    - change (a_ptr r) with (length h, 0). rewrite E. cbn [bind]. eauto.
  Qed.
End Grow.
