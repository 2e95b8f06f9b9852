(** GradMath.v: sums, inner products and the algebra behind the backward rules. *)
From Coq Require Import List Arith Lia Bool ZArith Permutation Ring.
From Verif Require Import Base Spec SpecFacts SpecGrad EinsumFacts2.
Import ListNotations.

Lemma nodup_map_on {A B} (f : A -> B) l : (forall x y, In x l -> In y l -> f x = f y -> x = y) -> NoDup l -> NoDup (map f l).
Proof.
  induction l as [|a l IH]; intros I ND; [constructor|]. inversion ND; subst. cbn [map]. constructor.
  - intros Q. apply in_map_iff in Q as (y & E & J). apply I in E; [subst; contradiction|now right|now left].
  - apply IH; auto. intros; apply I; auto; now right.
Qed.

Section Math.
  Context {T : Type} (N : num T) (inv : T -> T).
  Hypothesis F : is_field N inv.
  Notation "0" := (n0 N). Notation "1" := (n1 N).
  Notation "x + y" := (nadd N x y). Notation "x * y" := (nmul N x y).
  Notation "x - y" := (nsub N x y). Notation "- x" := (nneg N x).
  Notation "x / y" := (ndiv N x y).

  Lemma field_ring : ring_theory 0 1 (nadd N) (nmul N) (nsub N) (nneg N) eq.
  Proof.
    destruct F as [C H1 H2 _ _]. destruct C. constructor; auto.
    intros x y z. rewrite csr_mul_comm, csr_distr, (csr_mul_comm z x), (csr_mul_comm z y). reflexivity.
  Qed.
  Add Ring T_ring : field_ring.

  (** dual numbers are a ring in which division is right *)
  Lemma dual_div_ok x y : fst y * inv (fst y) = 1 -> nmul (dual N) (ndiv (dual N) x y) y = x.
  Proof.
    intros H. destruct x as [x x'], y as [y y']. cbn in *. rewrite !(fld_div _ _ F), (fld_inv _ _ F). f_equal.
    - transitivity (x * (y * inv y)); [ring|]. rewrite H. ring.
    - transitivity (x' * (y * inv y) + x * y' * inv y * (1 - y * inv y)); [ring|]. rewrite H. ring.
  Qed.

  Lemma total_nil : total N [] = 0. Proof. reflexivity. Qed.
  Lemma total_cons x l : total N (x :: l) = x + total N l. Proof. reflexivity. Qed.
  Lemma total_app l1 l2 : total N (l1 ++ l2) = total N l1 + total N l2.
  Proof. induction l1 as [|x l IH]; cbn [app]; rewrite ?total_nil, ?total_cons; [ring|]. rewrite IH. ring. Qed.
  Lemma total_perm l1 l2 : Permutation l1 l2 -> total N l1 = total N l2.
  Proof. apply (sum_perm 0 1 (nadd N) (nmul N) (fld_csr _ _ F)). Qed.
  Lemma total_ext {A} (f g : A -> T) l : (forall x, In x l -> f x = g x) -> total N (map f l) = total N (map g l).
  Proof. intros H. f_equal. now apply map_ext_in. Qed.
  Lemma total_add {A} (f g : A -> T) l : total N (map (fun x => f x + g x) l) = total N (map f l) + total N (map g l).
  Proof. induction l as [|x l IH]; cbn [map]; rewrite ?total_nil, ?total_cons; [ring|]. rewrite IH. ring. Qed.
  Lemma total_zero {A} (l : list A) : total N (map (fun _ => 0) l) = 0.
  Proof. induction l as [|x l IH]; cbn [map]; rewrite ?total_cons; [reflexivity|]. rewrite IH. ring. Qed.
  Lemma total_mul {A} c (f : A -> T) l : total N (map (fun x => c * f x) l) = c * total N (map f l).
  Proof. induction l as [|x l IH]; cbn [map]; rewrite ?total_nil, ?total_cons; [ring|]. rewrite IH. ring. Qed.
  Lemma total_mul_r {A} c (f : A -> T) l : total N (map (fun x => f x * c) l) = total N (map f l) * c.
  Proof. induction l as [|x l IH]; cbn [map]; rewrite ?total_nil, ?total_cons; [ring|]. rewrite IH. ring. Qed.
  Lemma total_neg {A} (f : A -> T) l : total N (map (fun x => - f x) l) = - total N (map f l).
  Proof. induction l as [|x l IH]; cbn [map]; rewrite ?total_nil, ?total_cons; [ring|]. rewrite IH. ring. Qed.
  Lemma total_swap {A B} (f : A -> B -> T) l k :
    total N (map (fun x => total N (map (f x) k)) l) = total N (map (fun y => total N (map (fun x => f x y) l)) k).
  Proof.
    induction l as [|x l IH]; cbn [map].
    - now rewrite total_nil, total_zero.
    - rewrite total_cons, IH, <- total_add. apply total_ext. intros y _. now rewrite total_cons.
  Qed.
  Lemma total_flat {A B} (f : B -> T) (g : A -> list B) l :
    total N (map f (flat_map g l)) = total N (map (fun x => total N (map f (g x))) l).
  Proof. induction l as [|x l IH]; [reflexivity|]. cbn [flat_map map]. now rewrite map_app, total_app, total_cons, IH. Qed.
  Lemma total_indices_cons f n sh : total N (map f (indices (n :: sh))) =
    total N (map (fun i => total N (map (fun r => f (i :: r)) (indices sh))) (seq 0%nat n)).
  Proof. cbn [indices]. rewrite total_flat. apply total_ext. intros i _. now rewrite map_map. Qed.
  Lemma total_indices_nil f : total N (map f (indices [])) = f [].
  Proof. cbn. ring. Qed.

  (** exactly one entry of a list without repetitions *)
  Lemma total_single {A} (eqd : forall x y : A, {x = y} + {x <> y}) (f : A -> T) l a : NoDup l -> In a l ->
    total N (map (fun i => if eqd i a then f i else 0) l) = f a.
  Proof.
    intros ND I. induction l as [|x l IH]; [destruct I|]. inversion ND; subst. cbn [map]. rewrite total_cons.
    destruct (eqd x a) as [->|Q].
    - rewrite (total_ext _ (fun _ => 0)), total_zero; [ring|]. intros y J. destruct (eqd y a) as [->|]; [contradiction|reflexivity].
    - destruct I as [I|I]; [congruence|]. rewrite IH by auto. ring.
  Qed.

  (** ** inner products *)
  Lemma inner_ext sh u u' v v' : (forall i, in_range i sh -> u i = u' i) -> (forall i, in_range i sh -> v i = v' i) ->
    inner N sh u v = inner N sh u' v'.
  Proof. intros H1 H2. unfold inner. apply total_ext. intros i I. apply in_indices in I. now rewrite H1, H2. Qed.
  Lemma inner_pointwise sh u v u' v' : (forall i, in_range i sh -> u i * v i = u' i * v' i) -> inner N sh u v = inner N sh u' v'.
  Proof. intros H. unfold inner. apply total_ext. intros i I. apply in_indices in I. now apply H. Qed.
  Lemma inner_pointwise2 sh u v u1 v1 u2 v2 : (forall i, in_range i sh -> u i * v i = u1 i * v1 i + u2 i * v2 i) ->
    inner N sh u v = inner N sh u1 v1 + inner N sh u2 v2.
  Proof. intros H. unfold inner. rewrite <- total_add. apply total_ext. intros i I. apply in_indices in I. now apply H. Qed.
  Lemma inner_0_r sh u : inner N sh u (fun _ => 0) = 0.
  Proof. unfold inner. rewrite (total_ext _ (fun _ => 0)), total_zero; [reflexivity|]. intros; ring. Qed.
  Lemma inner_zero_r sh u v : (forall i, in_range i sh -> v i = 0) -> inner N sh u v = 0.
  Proof. intros H. rewrite <- (inner_0_r sh u). apply inner_ext; auto. Qed.
  Lemma inner_add_l sh u1 u2 v : inner N sh (fun i => u1 i + u2 i) v = inner N sh u1 v + inner N sh u2 v.
  Proof. apply inner_pointwise2. intros. ring. Qed.
  Lemma inner_unit sh u idx : in_range idx sh ->
    inner N sh u (fun i => if list_eq_dec Nat.eq_dec i idx then 1 else 0) = u idx.
  Proof.
    intros R. unfold inner. rewrite (total_ext _ (fun i => if list_eq_dec Nat.eq_dec i idx then u i else 0)).
    - apply total_single; [apply NoDup_indices|now apply in_indices].
    - intros i _. destruct (list_eq_dec Nat.eq_dec i idx); ring.
  Qed.

  (** summing over the fibres of an index map is the adjoint of precomposing with it *)
  Definition fibre_sum (t : list nat) (p : list nat -> list nat) (g : list nat -> T) (i : list nat) : T :=
    total N (map g (filter (fun j => if list_eq_dec Nat.eq_dec (p j) i then true else false) (indices t))).

  Lemma inner_fibre s t p g d : (forall j, in_range j t -> in_range (p j) s) ->
    inner N t g (fun j => d (p j)) = inner N s (fibre_sum t p g) d.
  Proof.
    intros H. unfold inner, fibre_sum. assert (H' : forall j, In j (indices t) -> In (p j) (indices s)).
    { intros j J. apply in_indices, H. now apply in_indices. }
    revert H'. generalize (indices t) as L. clear H. induction L as [|x L IH]; intros H; cbn [map filter].
    - rewrite (total_ext _ (fun _ => 0)), total_zero; [reflexivity|]. intros i _. rewrite total_nil. ring.
    - rewrite total_cons, IH by (intros j J; apply H; now right).
      symmetry. transitivity (total N (map (fun i => (if list_eq_dec Nat.eq_dec i (p x) then g x * d i else 0) +
        total N (map g (filter (fun j => if list_eq_dec Nat.eq_dec (p j) i then true else false) L)) * d i) (indices s))).
      + apply total_ext. intros i _. destruct (list_eq_dec Nat.eq_dec (p x) i) as [Q|Q], (list_eq_dec Nat.eq_dec i (p x)) as [Q'|Q']; try congruence; cbn [map]; rewrite ?total_cons; ring.
      + rewrite total_add. f_equal.
        rewrite (total_single (list_eq_dec Nat.eq_dec) (fun i => g x * d i)); [reflexivity|apply NoDup_indices|]. apply H. now left.
  Qed.

  (** renaming indices by a bijection *)
  Lemma inner_bij s t p q g d : (forall j, in_range j t -> in_range (p j) s /\ q (p j) = j) ->
    (forall i, in_range i s -> in_range (q i) t /\ p (q i) = i) ->
    inner N t g (fun j => d (p j)) = inner N s (fun i => g (q i)) d.
  Proof.
    intros H1 H2. unfold inner. transitivity (total N (map (fun i => g (q i) * d i) (map p (indices t)))).
    - rewrite map_map. apply total_ext. intros j J. apply in_indices in J. destruct (H1 j J) as [_ ->]. reflexivity.
    - apply total_perm, Permutation_map, NoDup_Permutation; [|apply NoDup_indices|].
      + apply nodup_map_on; [|apply NoDup_indices]. intros x y X Y E. apply in_indices in X, Y.
        rewrite <- (proj2 (H1 x X)), <- (proj2 (H1 y Y)). now rewrite E.
      + intros i. rewrite in_map_iff, in_indices. split.
        * intros (j & <- & J). apply in_indices in J. now apply H1.
        * intros I. exists (q i). split; [now apply H2|]. apply in_indices. now apply H2.
  Qed.

  (** ** sums over ranges *)
  Definition Sg (n : nat) (f : nat -> T) : T := total N (map f (seq 0%nat n)).
  Lemma Sg_ext n f g : (forall i, i < n -> f i = g i) -> Sg n f = Sg n g.
  Proof. intros H. apply total_ext. intros i I. apply in_seq in I. apply H. lia. Qed.
  Lemma Sg_add n f g : Sg n (fun i => f i + g i) = Sg n f + Sg n g. Proof. apply total_add. Qed.
  Lemma Sg_mul n c f : Sg n (fun i => c * f i) = c * Sg n f. Proof. apply total_mul. Qed.
  Lemma Sg_mul_r n c f : Sg n (fun i => f i * c) = Sg n f * c. Proof. apply total_mul_r. Qed.
  Lemma Sg_swap n m f : Sg n (fun i => Sg m (fun j => f i j)) = Sg m (fun j => Sg n (fun i => f i j)).
  Proof. unfold Sg. apply (total_swap f). Qed.

  Lemma inner0 u v : inner N [] u v = u [] * v [].
  Proof. unfold inner. now rewrite total_indices_nil. Qed.
  Lemma inner1 n u v : inner N [n] u v = Sg n (fun i => u [i] * v [i]).
  Proof. unfold inner. rewrite total_indices_cons. apply Sg_ext. intros i _. now rewrite total_indices_nil. Qed.
  Lemma inner2 n m u v : inner N [n; m] u v = Sg n (fun i => Sg m (fun j => u [i; j] * v [i; j])).
  Proof.
    unfold inner. rewrite total_indices_cons. apply Sg_ext. intros i _. rewrite total_indices_cons. apply Sg_ext. intros j _.
    now rewrite total_indices_nil.
  Qed.
  Lemma inner3 q n m u v : inner N [q; n; m] u v = Sg q (fun b => Sg n (fun i => Sg m (fun j => u [b; i; j] * v [b; i; j]))).
  Proof.
    unfold inner. rewrite total_indices_cons. apply Sg_ext. intros b _. rewrite total_indices_cons. apply Sg_ext. intros i _.
    rewrite total_indices_cons. apply Sg_ext. intros j _. now rewrite total_indices_nil.
  Qed.

  Lemma dot_adjoint n g x y Dx Dy :
    Sg n (fun k => y k * g * Dx k) + Sg n (fun k => x k * g * Dy k) = g * Sg n (fun k => Dx k * y k + x k * Dy k).
  Proof. rewrite <- Sg_mul, <- Sg_add. apply Sg_ext. intros. ring. Qed.
  Lemma mv_adjoint n k g x y Dx Dy :
    Sg n (fun i => Sg k (fun t => g i * y t * Dx i t)) + Sg k (fun t => Sg n (fun i => x i t * g i) * Dy t)
    = Sg n (fun i => g i * Sg k (fun t => Dx i t * y t + x i t * Dy t)).
  Proof.
    transitivity (Sg n (fun i => Sg k (fun t => g i * y t * Dx i t)) + Sg n (fun i => Sg k (fun t => x i t * g i * Dy t))).
    - f_equal. rewrite Sg_swap. apply Sg_ext. intros t _. now rewrite Sg_mul_r.
    - rewrite <- Sg_add. apply Sg_ext. intros i _. rewrite <- Sg_add, <- Sg_mul. apply Sg_ext. intros. ring.
  Qed.
  Lemma mm_adjoint n k p g x y Dx Dy :
    Sg n (fun i => Sg k (fun t => Sg p (fun j => g i j * y t j) * Dx i t)) + Sg k (fun t => Sg p (fun j => Sg n (fun i => x i t * g i j) * Dy t j))
    = Sg n (fun i => Sg p (fun j => g i j * Sg k (fun t => Dx i t * y t j + x i t * Dy t j))).
  Proof.
    transitivity (Sg n (fun i => Sg p (fun j => Sg k (fun t => g i j * y t j * Dx i t))) + Sg n (fun i => Sg p (fun j => Sg k (fun t => x i t * g i j * Dy t j)))).
    - f_equal.
      + apply Sg_ext. intros i _. rewrite Sg_swap. apply Sg_ext. intros t _. now rewrite Sg_mul_r.
      + transitivity (Sg k (fun t => Sg p (fun j => Sg n (fun i => x i t * g i j * Dy t j)))).
        * apply Sg_ext. intros t _. apply Sg_ext. intros j _. now rewrite Sg_mul_r.
        * rewrite Sg_swap. transitivity (Sg p (fun j => Sg n (fun i => Sg k (fun t => x i t * g i j * Dy t j)))); [|apply Sg_swap].
          apply Sg_ext. intros j _. apply Sg_swap.
    - rewrite <- Sg_add. apply Sg_ext. intros i _. rewrite <- Sg_add. apply Sg_ext. intros j _. rewrite <- Sg_add, <- Sg_mul. apply Sg_ext. intros. ring.
  Qed.
  Lemma bmm_adjoint q n k p g x y Dx Dy :
    Sg q (fun b => Sg n (fun i => Sg k (fun t => Sg p (fun j => g b i j * y b t j) * Dx b i t)))
    + Sg q (fun b => Sg k (fun t => Sg p (fun j => Sg n (fun i => x b i t * g b i j) * Dy b t j)))
    = Sg q (fun b => Sg n (fun i => Sg p (fun j => g b i j * Sg k (fun t => Dx b i t * y b t j + x b i t * Dy b t j)))).
  Proof.
    rewrite <- Sg_add. apply Sg_ext. intros b _.
    apply (mm_adjoint n k p (fun i j => g b i j) (fun i t => x b i t) (fun t j => y b t j) (fun i t => Dx b i t) (fun t j => Dy b t j)).
  Qed.
End Math.
