(** GradFacts.v: what the array operations used by the differentiation engine do, in the form
    in which the proofs about the engine use them. *)
From Coq Require Import List Arith Lia Bool ZArith Permutation.
From Verif Require Import Base Spec Layout SpecFacts LayoutFacts Views ViewsFacts ViewsFacts2 ViewsFacts3 ViewsFacts4
  Kernels Access HeapFacts KernelFacts OpFacts AccessFacts Chain ChainFacts Reduce ReduceFacts Einsum EinsumFacts2
  PropsViews PropsOps PropsReduce PropsEinsum SpecGrad Autograd GradMath.
Import ListNotations.
Open Scope res_scope.

(** a layout without broadcasting over one block, of shape [sh], with the elements [v] *)
Definition good {T} (h : heap T) (a : arr) (sh : list nat) (v : list nat -> T) : Prop :=
  (exists b n, inv b n false a) /\ a_shape a = sh /\ forall idx, in_range idx sh -> get h a idx = Ok (v idx).
Definition rmaj (a : arr) : Prop := a_stride a = rm_stride (a_shape a).

(** an operation added blocks to the heap and returned a new row-major array *)
Definition made {T} (h h' : heap T) (r : arr) (sh : list nat) (v : list nat -> T) : Prop :=
  extends h h' /\ a_blk r = length h /\ good h' r sh v /\ rmaj r.

Lemma in_zero sh : pos sh -> in_range (repeat 0 (length sh)) sh.
Proof. induction 1; cbn [length repeat]; constructor; auto. Qed.

Section Good.
  Context {T : Type}.
  Implicit Types h : heap T.

  Lemma good_wf h a sh v : good h a sh v -> wf a.
  Proof. intros ((b & n & I) & _). apply (i_wf _ _ _ _ I). Qed.
  Lemma good_valid h a sh v : good h a sh v -> valid h a.
  Proof. intros G. split; [apply (good_wf _ _ _ _ G)|]. destruct G as (_ & <- & G). eauto. Qed.
  Lemma good_holds h a sh v : good h a sh v -> holds h a v.
  Proof. intros G. split; [apply (good_wf _ _ _ _ G)|]. destruct G as (_ & <- & G). eauto. Qed.
  Lemma good_pos h a sh v : good h a sh v -> pos sh.
  Proof. intros ((b & n & I) & <- & _). now apply (i_nb _ _ _ _ I). Qed.
  Lemma good_prod h a sh v : good h a sh v -> 0 < prod sh.
  Proof. intros G. apply pos_prod. now apply good_pos in G. Qed.
  Lemma good_blk h a sh v : good h a sh v -> a_blk a < length h.
  Proof. intros G. pose proof (good_pos _ _ _ _ G) as P. destruct G as (_ & <- & G). specialize (G _ (in_zero _ P)). now apply load_lt in G. Qed.
  Lemma good_shape h a sh v : good h a sh v -> a_shape a = sh.
  Proof. now intros (_ & E & _). Qed.
  Lemma good_get h a sh v idx : good h a sh v -> in_range idx sh -> get h a idx = Ok (v idx).
  Proof. intros (_ & _ & G). apply G. Qed.
  Lemma good_flags h a sh v : good h a sh v -> flags_ok a.
  Proof. intros ((b & n & I) & _). apply (i_fl _ _ _ _ I). Qed.
  Lemma good_nz h a sh v : good h a sh v -> nz (a_stride a).
  Proof. intros ((b & n & I) & _). now apply (i_nb _ _ _ _ I). Qed.
  Lemma good_nb h a sh v : good h a sh v -> no_bcast (a_shape a) (a_stride a).
  Proof. intros G. apply nonzero_no_bcast; [symmetry; apply (good_wf _ _ _ _ G)|apply (good_nz _ _ _ _ G)]. Qed.
  Lemma good_tight h a sh v : good h a sh v -> tight a.
  Proof. intros ((b & n & I) & _). destruct (i_nb _ _ _ _ I eq_refl) as (P & Z & _ & L). apply contig_tight; auto; apply I. Qed.
  Lemma good_v h a sh v v' : good h a sh v -> (forall idx, in_range idx sh -> v idx = v' idx) -> good h a sh v'.
  Proof. intros (I & S & G) E. split; [auto|split; [auto|]]. intros idx R. rewrite <- E by auto. auto. Qed.

  (** the cells of [a] are the same in both heaps *)
  Lemma good_heap h h' a sh v : good h a sh v -> (forall o, load h' (a_blk a) o = load h (a_blk a) o) -> good h' a sh v.
  Proof. intros (I & S & G) E. split; [auto|split; [auto|]]. intros idx R. specialize (G idx R). unfold get in *. now rewrite E. Qed.
  Lemma good_extends h h' a sh v : good h a sh v -> extends h h' -> good h' a sh v.
  Proof. intros G [L E]. apply (good_heap _ _ _ _ _ G). intros o. apply E. now apply good_blk in G. Qed.

  Lemma fresh_good h sh val (v : list nat -> T) h' r : fresh_result h h' r sh val -> (forall idx, in_range idx sh -> val idx = Ok (v idx)) ->
    good h' r sh v.
  Proof.
    intros (_ & _ & S & _ & C & _ & G) E. split; [do 2 eexists; eapply chain_inv, C|]. split; [auto|]. intros idx R. rewrite G by auto. auto.
  Qed.
  Lemma made_of h sh val (v : list nat -> T) h' r : fresh_result h h' r sh val -> (forall idx, in_range idx sh -> val idx = Ok (v idx)) ->
    rmaj r -> made h h' r sh v.
  Proof. intros F E R. pose proof (fresh_good _ _ _ _ _ _ F E). destruct F as (X & B & _). split; [exact (grows_extends _ _ X)|split; [now rewrite B|split; auto]]. Qed.
  Lemma made_v h h' r sh v v' : made h h' r sh v -> (forall idx, in_range idx sh -> v idx = v' idx) -> made h h' r sh v'.
  Proof. intros (E & B & G & R) H. split; [auto|split; [auto|split; [|auto]]]. eapply good_v; eauto. Qed.
  Lemma rmaj_fresh b n sh : rmaj (fresh_arr b n sh).
  Proof. unfold rmaj. cbn. now rewrite stride_from_shape_rm. Qed.

  Lemma rmaj_uniform h a sh v : good h a sh v -> rmaj a -> f_unif (a_fl a) = true.
  Proof.
    intros G R. destruct (good_flags _ _ _ _ G) as [-> _]. unfold rmaj in R. rewrite R.
    destruct (fresh_inv 0 (prod (a_shape a)) (a_shape a) eq_refl) as [_ [U _] _ _ _ _].
    { rewrite (good_shape _ _ _ _ G). now apply good_prod in G. }
    cbn in U. rewrite stride_from_shape_rm in U. now rewrite <- U.
  Qed.

  (** constructors *)
  Lemma from_buffer_made h sh data d : length data = prod sh -> 0 < prod sh ->
    made h (fst (from_buffer h sh data)) (snd (from_buffer h sh data)) sh (fun idx => nth (rank idx sh) data d).
  Proof.
    intros L P. unfold from_buffer. cbn. split; [apply extends_app|]. split; [reflexivity|]. split; [|apply rmaj_fresh].
    split; [exists (length h), (length data); apply fresh_inv; lia|]. split; [reflexivity|]. intros idx R.
    destruct (fresh_get h sh data (length data) idx L R) as (v & E & ->). now rewrite (nth_error_nth _ _ d E).
  Qed.
  Lemma nd_full_made h x sh : 0 < prod sh -> exists h' r, nd_full h x sh = Ok (h', r) /\ made h h' r sh (fun _ => x) /\
      r = fresh_arr (length h) (prod sh) sh.
  Proof.
    intros P. unfold nd_full. rewrite repeat_length. destruct (prod sh =? 0) eqn:E; [apply Nat.eqb_eq in E; lia|].
    cbn [negb guard bind]. do 2 eexists. split; [reflexivity|].
    pose proof (from_buffer_made h sh (repeat x (prod sh)) x (repeat_length _ _) P) as M. split.
    - eapply made_v; [apply M|]. intros idx R. cbv beta. apply nth_repeat.
    - cbn. now rewrite repeat_length.
  Qed.
  Lemma new_array_made h sh data d : (exists h' r, new_array h sh data = Ok (h', r) /\
      made h h' r sh (fun idx => nth (rank idx sh) data d)) \/ new_array h sh data = Panic.
  Proof.
    unfold new_array. destruct (length data =? prod sh) eqn:E1; [|now right]. destruct (length data =? 0) eqn:E2; [now right|].
    cbn [negb guard bind]. apply Nat.eqb_eq in E1. apply Nat.eqb_neq in E2. left. do 2 eexists. split; [reflexivity|].
    apply from_buffer_made; auto. lia.
  Qed.
End Good.

Section Ops.
  Context {T : Type} (N : num T) (inv0 : T -> T).
  Hypothesis F : is_field N inv0.
  Implicit Types h : heap T.

  Lemma join_shape_pos a b sh : join_shape a b sh -> pos a -> pos b -> pos sh.
  Proof.
    intros [L J] Pa Pb. apply pos_prod in Pa, Pb. apply pos_prod in Pa, Pb.
    assert (D : forall l, pos l -> forall k, 0 < dim_r l k).
    { intros l P k. unfold dim_r. destruct (Nat.ltb_spec k (length l)).
      - assert (Q : In (nth k (rev l) 1) l). { apply in_rev, nth_In. now rewrite rev_length. }
        unfold pos in P. rewrite Forall_forall in P. now apply P.
      - rewrite nth_overflow; [lia|now rewrite rev_length]. }
    unfold pos. rewrite Forall_forall. intros x I. apply in_rev in I. apply (In_nth _ _ 1) in I as (k & _ & <-).
    change (0 < dim_r sh k). rewrite (proj2 (J k)). unfold dim_join. destruct (dim_r a k =? 1); auto.
  Qed.

  Lemma nd_binary_fresh (f : T -> T -> res T) z h a b h' r : nd_binary f z h a b = Ok (h', r) -> rmaj r.
  Proof.
    unfold nd_binary. intros E. repeat (apply bind_Ok_inv in E as (? & _ & E)). 
    repeat match type of E with context [let '(_, _) := ?x in _] => destruct x end.
    repeat (apply bind_Ok_inv in E as (? & _ & E)). injection E as <- <-. apply rmaj_fresh.
  Qed.
  Lemma a_bin_ok o h a b sa sb sh va vb : good h a sa va -> good h b sb vb -> join_shape sa sb sh -> length sh <= MAX_DIMS ->
    exists h' r, a_bin N o h a b = Ok (h', r) /\ made h h' r sh (m_bin N o sa va sb vb).
  Proof.
    intros Ga Gb J MD. pose proof (join_shape_pos _ _ _ J (good_pos _ _ _ _ Ga) (good_pos _ _ _ _ Gb)) as P.
    pose proof (join_shape_broadcastable_l _ _ _ J) as Ba. pose proof (join_shape_broadcastable_r _ _ _ J) as Bb.
    rewrite <- (good_shape _ _ _ _ Ga), <- (good_shape _ _ _ _ Gb) in J.
    destruct (C12_binary T (lift2 (bopf N o)) (n0 N) h a b sh (good_valid _ _ _ _ Ga) (good_valid _ _ _ _ Gb) J MD (proj1 (pos_prod _) P)) as [H _].
    assert (V : forall idx, in_range idx sh -> (x <- get h a (bidx (a_shape a) idx) ;; y <- get h b (bidx (a_shape b) idx) ;; lift2 (bopf N o) x y)
        = Ok (m_bin N o sa va sb vb idx)).
    { intros idx R. destruct Ga as (_ & Sa & Ga), Gb as (_ & Sb & Gb). rewrite Sa, Sb.
      destruct (broadcast_stride_ok sa (rm_stride sa) sh (rm_stride_length _) Ba) as (? & _ & _ & Ka).
      destruct (broadcast_stride_ok sb (rm_stride sb) sh (rm_stride_length _) Bb) as (? & _ & _ & Kb).
      rewrite (Ga _ (proj1 (Ka _ R))), (Gb _ (proj1 (Kb _ R))). reflexivity. }
    destruct H as (h' & r & E & FR); [intros idx R; rewrite V by auto; eauto|].
    exists h', r. split; [exact E|]. eapply made_of; [exact FR|exact V|]. now apply nd_binary_fresh in E.
  Qed.
  Lemma a_bin_panic o h a b : (exists k, ~ dim_compat (dim_r (a_shape a) k) (dim_r (a_shape b) k)) -> a_bin N o h a b = Panic.
  Proof. apply C12_incompatible_shapes_panic. Qed.

  Lemma a_scal_ok o h a c sa va : good h a sa va -> length sa <= MAX_DIMS ->
    exists h' r, a_scal N o h a c = Ok (h', r) /\ made h h' r sa (fun idx => bopf N o (va idx) c).
  Proof.
    intros G MD. pose proof (good_prod _ _ _ _ G) as P. rewrite <- (good_shape _ _ _ _ G) in MD, P |- *.
    destruct (C13_scalar_op T (lift2 (bopf N o)) (n0 N) h a c (good_valid _ _ _ _ G) MD P) as [H _].
    assert (V : forall idx, in_range idx (a_shape a) -> (x <- get h a idx ;; lift2 (bopf N o) x c) = Ok (bopf N o (va idx) c)).
    { intros idx R. rewrite (good_get _ _ _ _ idx G); [reflexivity|]. now rewrite <- (good_shape _ _ _ _ G). }
    destruct H as (h' & r & E & FR); [intros idx R; rewrite V by auto; eauto|].
    exists h', r. split; [exact E|]. eapply made_of; [exact FR|exact V|].
    unfold nd_scalar_op in E. repeat (apply bind_Ok_inv in E as (? & _ & E)). 
    repeat match type of E with context [let '(_, _) := ?x in _] => destruct x end.
    repeat (apply bind_Ok_inv in E as (? & _ & E)). injection E as <- <-. apply rmaj_fresh.
  Qed.
  Lemma a_neg_ok h a sa va : good h a sa va -> length sa <= MAX_DIMS ->
    exists h' r, a_neg N h a = Ok (h', r) /\ made h h' r sa (fun idx => nneg N (va idx)).
  Proof.
    intros G MD. pose proof (good_prod _ _ _ _ G) as P. rewrite <- (good_shape _ _ _ _ G) in MD, P |- *.
    destruct (C13_negation T (lift1 (nneg N)) (n0 N) h a (good_valid _ _ _ _ G) MD P) as [H _].
    assert (V : forall idx, in_range idx (a_shape a) -> (x <- get h a idx ;; lift1 (nneg N) x) = Ok (nneg N (va idx))).
    { intros idx R. rewrite (good_get _ _ _ _ idx G); [reflexivity|]. now rewrite <- (good_shape _ _ _ _ G). }
    destruct H as (h' & r & E & FR); [intros idx R; rewrite V by auto; eauto|].
    exists h', r. split; [exact E|]. eapply made_of; [exact FR|exact V|].
    unfold nd_unary in E. repeat (apply bind_Ok_inv in E as (? & _ & E)). 
    repeat match type of E with context [let '(_, _) := ?x in _] => destruct x end.
    repeat (apply bind_Ok_inv in E as (? & _ & E)). injection E as <- <-. apply rmaj_fresh.
  Qed.

  Lemma a_dot_ok h a b n va vb : good h a [n] va -> good h b [n] vb ->
    exists h' r, a_dot N h a b = Ok (h', r) /\ made h h' r [] (m_dot N n va vb).
  Proof.
    intros Ga Gb. pose proof (good_pos _ _ _ _ Ga) as P. apply Forall_inv in P.
    destruct (C26_dot T (n0 N) (n1 N) _ _ (fld_csr _ _ F) h a b va vb n (good_shape _ _ _ _ Ga) (good_shape _ _ _ _ Gb) P
      (good_holds _ _ _ _ Ga) (good_holds _ _ _ _ Gb)) as (h' & r & E & FR).
    exists h', r. split; [exact E|]. eapply made_of; [exact FR|reflexivity|]. 
    destruct FR as (_ & _ & S & (L & _) & _). unfold rmaj. rewrite S in L |- *. now destruct (a_stride r).
  Qed.
  Lemma rmaj_full h x sh h' r : nd_full h x sh = Ok (h', r) -> rmaj r.
  Proof. unfold nd_full. destruct (negb _); cbn; [|discriminate]. intros E. injection E as <- <-. apply rmaj_fresh. Qed.
  Lemma rmaj_matmul h a b h' r : a_matmul N h a b = Ok (h', r) -> length (a_shape a) = 2 -> rmaj r.
  Proof.
    unfold a_matmul, nd_matmul. intros E L. destruct (a_shape a) as [|n [|k []]]; try discriminate L.
    destruct (a_shape b) as [|k' [|m []]]; try discriminate E; apply bind_Ok_inv in E as (? & _ & E).
    - destruct (a_stride a) as [|s1 [|s2 []]]; try discriminate E. destruct (a_stride b) as [|t1 []]; try discriminate E.
      unfold alloc in E. apply bind_Ok_inv in E as (? & _ & E). injection E as <- <-. apply rmaj_fresh.
    - apply bind_Ok_inv in E as ((h1 & r1) & E1 & E). apply bind_Ok_inv in E as (? & _ & E). injection E as <- <-. now apply rmaj_full in E1.
  Qed.
  Lemma rmaj_bmm h a b h' r : a_bmm N h a b = Ok (h', r) -> rmaj r.
  Proof.
    unfold a_bmm, nd_bmm. intros E. destruct (a_shape a) as [|n [|k [|? []]]]; try discriminate E.
    destruct (a_shape b) as [|n' [|k' [|? []]]]; try discriminate E; apply bind_Ok_inv in E as (? & _ & E).
    apply bind_Ok_inv in E as ((h1 & r1) & E1 & E). do 6 (apply bind_Ok_inv in E as (? & _ & E)). injection E as <- <-. now apply rmaj_full in E1.
  Qed.
  Lemma a_matvec_ok h a b n k va vb : good h a [n; k] va -> good h b [k] vb ->
    exists h' r, a_matmul N h a b = Ok (h', r) /\ made h h' r [n] (m_matvec N k va vb).
  Proof.
    intros Ga Gb. pose proof (good_pos _ _ _ _ Ga) as P. pose proof (Forall_inv P) as P1. apply Forall_inv_tail, Forall_inv in P.
    destruct (C26_matvec T (n0 N) (n1 N) _ _ (fld_csr _ _ F) h a b va vb n k (good_shape _ _ _ _ Ga) (good_shape _ _ _ _ Gb) P1 P
      (good_holds _ _ _ _ Ga) (good_holds _ _ _ _ Gb)) as (h' & r & E & FR).
    exists h', r. split; [exact E|]. eapply made_of; [exact FR| |apply rmaj_matmul in E; [auto|now rewrite (good_shape _ _ _ _ Ga)]].
    intros idx R. unfold m_matvec. destruct idx; reflexivity.
  Qed.
  Lemma a_matmul_ok h a b n k m va vb : good h a [n; k] va -> good h b [k; m] vb ->
    exists h' r, a_matmul N h a b = Ok (h', r) /\ made h h' r [n; m] (m_matmul N k va vb).
  Proof.
    intros Ga Gb. pose proof (good_pos _ _ _ _ Ga) as P. pose proof (Forall_inv P) as P1. apply Forall_inv_tail, Forall_inv in P.
    pose proof (good_pos _ _ _ _ Gb) as Q. apply Forall_inv_tail, Forall_inv in Q.
    destruct (C26_matmul T (n0 N) (n1 N) _ _ (fld_csr _ _ F) h a b va vb n k m (good_shape _ _ _ _ Ga) (good_shape _ _ _ _ Gb) P1 P Q
      (good_holds _ _ _ _ Ga) (good_holds _ _ _ _ Gb)) as (h' & r & E & FR).
    exists h', r. split; [exact E|]. eapply made_of; [exact FR|reflexivity|apply rmaj_matmul in E; [auto|now rewrite (good_shape _ _ _ _ Ga)]].
  Qed.
  Lemma a_bmm_ok h a b q n k m va vb : good h a [q; n; k] va -> good h b [q; k; m] vb ->
    exists h' r, a_bmm N h a b = Ok (h', r) /\ made h h' r [q; n; m] (m_bmm N k va vb).
  Proof.
    intros Ga Gb. pose proof (good_pos _ _ _ _ Ga) as P. pose proof (Forall_inv P) as P1. apply Forall_inv_tail in P.
    pose proof (Forall_inv P) as P2. apply Forall_inv_tail, Forall_inv in P.
    pose proof (good_pos _ _ _ _ Gb) as Q. apply Forall_inv_tail, Forall_inv_tail, Forall_inv in Q.
    destruct (C26_bmm T (n0 N) (n1 N) _ _ (fld_csr _ _ F) h a b va vb q n k m (good_shape _ _ _ _ Ga) (good_shape _ _ _ _ Gb) P1 P2 P Q
      (good_holds _ _ _ _ Ga) (good_holds _ _ _ _ Gb)) as (h' & r & E & FR).
    exists h', r. split; [exact E|]. eapply made_of; [exact FR|reflexivity|now apply rmaj_bmm in E].
  Qed.
End Ops.
