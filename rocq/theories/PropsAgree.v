(** PropsAgree.v: einsum and the functions with a name of their own give the same answer (C90).
    The pairs come from src/bin/einsum.rs, which times einsum against dot (15-33), matmul
    (35-79), bmm (93-117), trace (119-135) and diagonal (160-176), and times the transposed
    product (81-91), the full sum (149-158) and the elementwise product (190-200). *)
From Coq Require Import List Arith Lia Bool ZArith Floats.SpecFloat.
From Verif Require Import Base Spec Layout SpecFacts LayoutFacts Views ViewsFacts ViewsFacts2 ViewsFacts3 Kernels OpFacts Access HeapFacts Reduce Einsum
  EinsumParse EinsumFacts EinsumFacts2 EinsumFacts3 EinsumFacts4 EinsumFacts5 EinsumFacts6 EinsumFacts7 Chain ChainFacts PropsViews PropsOps PropsReduce PropsEinsum PropsEinsumView Numeric.
From Verif Require FloatDot.
From Verif Require GradFacts3 GradFacts4.
Import ListNotations.
Open Scope res_scope.

(** Both calls return; the results are the same array record of shape sh, in heaps where it has
    the same elements. *)
Definition same_answer {T} (x y : res (heap T * arr)) (sh : list nat) : Prop :=
  exists h1 h2 r, x = Ok (h1, r) /\ y = Ok (h2, r) /\ a_shape r = sh /\
    forall idx, in_range idx sh -> exists v, get h1 r idx = Ok v /\ get h2 r idx = Ok v.

Lemma answers {T} (h : heap T) x y sh (v w : list nat -> T) :
  (exists h' r, x = Ok (h', r) /\ fresh_result h h' r sh (fun i => Ok (v i))) ->
  (exists h' r, y = Ok (h', r) /\ fresh_result h h' r sh (fun i => Ok (w i))) ->
  (forall idx, in_range idx sh -> v idx = w idx) -> same_answer x y sh.
Proof.
  intros (h1 & r1 & E1 & F1) (h2 & r2 & E2 & F2) VW. destruct F1 as (_ & R1 & S1 & _ & _ & _ & G1), F2 as (_ & R2 & _ & _ & _ & _ & G2).
  exists h1, h2, r1. split; [exact E1|]. split; [rewrite E2, R1, R2; reflexivity|]. split; [exact S1|]. intros idx R. exists (v idx).
  split; [now apply G1|]. rewrite R1, <- R2. rewrite VW by exact R. now apply G2.
Qed.

(** the letters a b c i j k *)
Notation "'#a'" := 97%Z. Notation "'#b'" := 98%Z. Notation "'#c'" := 99%Z.
Notation "'#i'" := 105%Z. Notation "'#j'" := 106%Z. Notation "'#k'" := 107%Z.

Ltac request :=
  repeat match goal with
  | |- Forall _ _ => repeat (constructor; try (unfold letter; lia))
  | |- NoDup _ => repeat constructor; cbn; intuition congruence
  | |- _ <> [] => discriminate
  | |- length _ <= _ => cbn; lia
  end.

Definition mem (ls : list Z) (l : Z) : bool := existsb (Z.eqb l) ls.
Lemma mem_In ls l : mem ls l = true <-> In l ls.
Proof.
  unfold mem. rewrite existsb_exists. split; [intros (x & I & E); apply Z.eqb_eq in E; now subst|intros I; exists l; split; [exact I|apply Z.eqb_refl]].
Qed.
Lemma covers subs ls : forallb (fun l => existsb (fun s => mem s l) subs) ls = true -> forallb (forallb (mem ls)) subs = true ->
  forall l, In l ls <-> exists s, In s subs /\ In l s.
Proof.
  intros H1 H2 l. rewrite forallb_forall in H1, H2. split.
  - intros I. apply H1, existsb_exists in I as (s & I & J). apply mem_In in J. eauto.
  - intros (s & I & J). apply H2 in I. rewrite forallb_forall in I. apply I, mem_In in J. exact J.
Qed.

Section Agree.
  Context {T : Type} (zero one : T) (add mul : T -> T -> T).
  Hypothesis CSR : is_csr zero one add mul.
  Notation einsum := (nd_einsum zero one (okadd add) (okadd mul) (okfma add mul)).
  Notation sum := (bigsum add zero).

  Lemma mul_1_r' x : mul x one = x.
  Proof. destruct CSR. rewrite csr_mul_comm. apply csr_mul_1. Qed.

  Lemma fold_left_sum l z : fold_left add l z = add z (sum l).
  Proof.
    destruct CSR. revert z. induction l as [|x l IH]; intros z; cbn [fold_left bigsum fold_right].
    - rewrite csr_add_comm, csr_add_0. reflexivity.
    - rewrite IH. unfold bigsum. now rewrite csr_add_assoc.
  Qed.

  (** the range of each letter *)
  Definition dims4 (q n k m : nat) (l : Z) : nat := if (l =? #b)%Z then q else if (l =? #i)%Z then n else if (l =? #j)%Z then k else m.
  Lemma dims4_pos q n k m : 0 < q -> 0 < n -> 0 < k -> 0 < m -> forall l, 0 < dims4 q n k m l.
  Proof. intros Q N K M l. unfold dims4. destruct (l =? #b)%Z, (l =? #i)%Z, (l =? #j)%Z; assumption. Qed.

  Lemma ein h ops subs vals out sm dm : Forall (Forall letter) subs -> Forall letter out -> NoDup (out ++ sm) ->
    (forall l, In l (out ++ sm) <-> exists s, In s subs /\ In l s) -> out ++ sm <> [] -> length (out ++ sm) <= 32 -> length ops <= 15 ->
    Forall2 (fun s a => a_shape a = map dm s /\ length s <= 32) subs ops -> Forall2 (holds h) ops vals -> (forall l, 0 < dm l) ->
    exists h' r, einsum h ops subs out = Ok (h', r) /\
      fresh_result h h' r (map dm out) (fun oidx => Ok (einsum_value zero one add mul dm subs vals out sm oidx)).
  Proof. intros; eapply C27_einsum_partial; eauto. Qed.

  Ltac cover := apply covers; reflexivity.
  Ltac two Sa Sb := constructor; [split; [rewrite Sa; reflexivity|cbn; lia]|constructor; [split; [rewrite Sb; reflexivity|cbn; lia]|constructor]].
  Ltac value := unfold einsum_value; cbn [map dims4 Z.eqb Pos.eqb]; rewrite ?indices_one, ?map_map; f_equal; apply map_ext; intros t;
    cbn [combine map fst snd app lookup Z.eqb Pos.eqb bigsum fold_right]; rewrite ?mul_1_r'.

  (** "i,i->" and dot *)
  Lemma dot_agree h a b va vb n : a_shape a = [n] -> a_shape b = [n] -> 0 < n -> holds h a va -> holds h b vb ->
    same_answer (einsum h [a; b] [[#i]; [#i]] []) (nd_dot zero (okadd add) (okadd mul) h a b) [].
  Proof.
    intros Sa Sb N Ha Hb. eapply answers; [|apply (C26_dot T zero one add mul CSR h a b va vb n); auto|].
    - apply (ein h [a; b] [[#i]; [#i]] [va; vb] [] [#i] (dims4 1 n 1 1)); request.
      + cover.
      + two Sa Sb.
      + auto.
      + apply dims4_pos; lia.
    - intros idx R. inversion R; subst. value. reflexivity.
  Qed.

  (** "ij,j->i" and matmul by a vector *)
  Lemma matvec_agree h a b va vb n k : a_shape a = [n; k] -> a_shape b = [k] -> 0 < n -> 0 < k -> holds h a va -> holds h b vb ->
    same_answer (einsum h [a; b] [[#i; #j]; [#j]] [#i]) (nd_matmul zero one (okadd add) (okadd mul) (okfma add mul) h a b) [n].
  Proof.
    intros Sa Sb N K Ha Hb. eapply answers; [|apply (C26_matvec T zero one add mul CSR h a b va vb n k); auto|].
    - apply (ein h [a; b] [[#i; #j]; [#j]] [va; vb] [#i] [#j] (dims4 1 n k 1)); request.
      + cover.
      + two Sa Sb.
      + auto.
      + apply dims4_pos; lia.
    - intros idx R. apply in_range_length in R. destruct idx as [|i [|? ?]]; try discriminate R. value. reflexivity.
  Qed.

  (** "ik,jk->ij" and matmul by the transpose *)
  Lemma matmul_t_agree h a b bt va vb n k m w : a_shape a = [n; k] -> a_shape b = [m; k] -> 0 < n -> 0 < k -> 0 < m -> holds h a va -> holds h b vb ->
    nd_T w b = Ok bt ->
    same_answer (einsum h [a; b] [[#i; #k]; [#j; #k]] [#i; #j]) (nd_matmul zero one (okadd add) (okadd mul) (okfma add mul) h a bt) [n; m].
  Proof.
    intros Sa Sb N K M Ha Hb ET.
    assert (Hbt : a_shape bt = [k; m] /\ holds h bt (fun idx => vb [nth 1 idx 0; nth 0 idx 0])).
    { destruct Hb as [Lb Hb]. unfold nd_T, nd_transpose in ET. rewrite Sb in *. destruct (a_stride b) as [|s0 [|s1 [|? ?]]] eqn:Eb; try discriminate.
      assert (EB : bt = reshaped_view w b [k; m] [s1; s0]) by (apply GradFacts4.Ok_inj; symmetry; exact ET).
      assert (FB : a_shape bt = [k; m] /\ a_stride bt = [s1; s0] /\ a_blk bt = a_blk b /\ a_off bt = a_off b) by (rewrite EB; destruct w; repeat split).
      clear ET EB. destruct FB as (F1 & F2 & F3 & F4). split; [exact F1|]. split; [rewrite F1, F2; reflexivity|]. intros idx R. rewrite F1 in R.
      pose proof (in_range_length _ _ R) as RL. destruct idx as [|i [|j [|? ?]]]; try discriminate RL.
      inversion R as [|? ? ? ? R1 R2]; subst. inversion R2 as [|? ? ? ? R3 R4]; subst. cbn [nth].
      rewrite <- (Hb [j; i]) by (repeat constructor; assumption). unfold get. rewrite F2, F3, F4, Eb. cbn [dot]. f_equal. lia. }
    destruct Hbt as [St Ht]. eapply answers; [|apply (C26_matmul T zero one add mul CSR h a bt va (fun idx => vb [nth 1 idx 0; nth 0 idx 0]) n k m); eauto|].
    - apply (ein h [a; b] [[#i; #k]; [#j; #k]] [va; vb] [#i; #j] [#k] (dims4 1 n m k)); request.
      + cover.
      + two Sa Sb.
      + auto.
      + apply dims4_pos; lia.
    - intros idx R. apply in_range_length in R. destruct idx as [|i [|j [|? ?]]]; try discriminate R. value. reflexivity.
  Qed.

  (** "bij,bjk->bik" and bmm *)
  Lemma bmm_agree h a b va vb q n k m : a_shape a = [q; n; k] -> a_shape b = [q; k; m] -> 0 < q -> 0 < n -> 0 < k -> 0 < m -> holds h a va -> holds h b vb ->
    same_answer (einsum h [a; b] [[#b; #i; #j]; [#b; #j; #k]] [#b; #i; #k]) (nd_bmm zero one (okadd add) (okadd mul) (okfma add mul) h a b) [q; n; m].
  Proof.
    intros Sa Sb Q N K M Ha Hb. eapply answers; [|apply (C26_bmm T zero one add mul CSR h a b va vb q n k m); auto|].
    - apply (ein h [a; b] [[#b; #i; #j]; [#b; #j; #k]] [va; vb] [#b; #i; #k] [#j] (dims4 q n k m)); request.
      + cover.
      + two Sa Sb.
      + auto.
      + apply dims4_pos; lia.
    - intros idx R. apply in_range_length in R. destruct idx as [|x [|i [|j [|? ?]]]]; try discriminate R. value. reflexivity.
  Qed.

  (** "ii->" and trace *)
  Lemma trace_agree h b l bc a va n : live h b l -> chain b l bc a -> a_shape a = [n; n] -> 0 < n -> holds h a va ->
    same_answer (einsum h [a] [[#i; #i]] []) (nd_trace zero (okadd add) h a 0 0 1) [].
  Proof.
    intros LV C Sa N Ha.
    destruct (C30_trace T zero (okadd add) h b l bc a 0 0 1 LV C) as [TR _]; try (rewrite Sa; cbn; unfold MAX_DIMS; nia).
    { rewrite Sa. change (- Z.of_nat n < 0 < Z.of_nat n)%Z. lia. }
    rewrite Sa in TR. change (Z.to_nat (0 mod Z.of_nat (length [n; n]))) with 0 in TR. change (Z.to_nat (1 mod Z.of_nat (length [n; n]))) with 1 in TR.
    cbn [nth length drop_two Nat.eqb orb] in TR. change (Z.to_nat (- 0)) with 0 in TR. change (Z.to_nat 0) with 0 in TR. rewrite Nat.sub_0_r, Nat.min_id in TR.
    assert (V : forall rest, in_range rest [] -> (vs <- mapM (fun d => get h a (diag_index 2 0 1 0 (rest ++ [d]))) (seq 0 n) ;; foldM (fun x acc => okadd add acc x) vs zero)
       = Ok (sum (map (fun d => va [d; d]) (seq 0 n)))).
    { intros rest R. inversion R; subst. cbn [app].
      assert (M : forall l, incl l (seq 0 n) -> mapM (fun d => get h a (diag_index 2 0 1 0 [d])) l = Ok (map (fun d => va [d; d]) l)).
      { induction l0 as [|d l' IH]; intros I; [reflexivity|]. cbn [mapM map].
        assert (D : d < n) by (specialize (I d ltac:(now left)); apply in_seq in I; lia).
        change (diag_index 2 0 1 0 [d]) with [d + 0; d + 0]. rewrite Nat.add_0_r. destruct Ha as [_ Ha]. rewrite Ha by (rewrite Sa; repeat constructor; exact D).
        cbn [bind]. rewrite IH by (intros x X; apply I; now right). reflexivity. }
      rewrite M by apply incl_refl. cbn [bind]. generalize (map (fun d => va [d; d]) (seq 0 n)). intros vs.
      assert (FM : forall vs z, foldM (fun x acc => okadd add acc x) vs z = Ok (fold_left add vs z)).
      { induction vs0 as [|x vs0 IH]; intros z; [reflexivity|]. cbn [foldM fold_left okadd bind]. apply IH. }
      rewrite FM, fold_left_sum. destruct CSR. now rewrite csr_add_0. }
    eapply answers with (w := fun _ => sum (map (fun d => va [d; d]) (seq 0 n))).
    - apply (ein h [a] [[#i; #i]] [va] [] [#i] (dims4 1 n 1 1)); request.
      + cover.
      + constructor; [split; [rewrite Sa; reflexivity|cbn; lia]|constructor].
      + auto.
      + apply dims4_pos; lia.
    - destruct TR as (h' & r & E & F); [intros rest R; rewrite (V rest R); eauto|]. exists h', r. split; [exact E|]. eapply fresh_result_ext; [|exact F]. exact V.
    - intros idx R. inversion R; subst. value. reflexivity.
  Qed.

  (** every label once, none kept: sum *)
  Lemma sum_agree h b n a sub : live h b n -> chain b n false a -> 0 < prod (a_shape a) -> Forall letter sub -> NoDup sub ->
    length sub = length (a_shape a) -> sub <> [] -> length sub <= 32 ->
    same_answer (einsum h [a] [sub] []) (nd_reduce (fun x acc => Ok (add acc x)) zero h a) [].
  Proof.
    intros LV C P LS ND LE NE LM. pose proof (chain_valid h b n _ a LV C) as [W V].
    pose (va := fun idx => match get h a idx with Ok x => x | _ => zero end).
    assert (HV : holds h a va). { split; [exact W|]. intros idx R. unfold va. destruct (V idx R) as (x & ->). reflexivity. }
    set (dm := fun l => if mem sub l then lookup sub (a_shape a) l else 1).
    assert (SH : a_shape a = map dm sub).
    { rewrite <- (map_lookup sub ND (a_shape a)) at 1 by now symmetry. apply map_ext_in. intros l I. unfold dm. now rewrite (proj2 (mem_In sub l) I). }
    destruct (C19_fold_total_partial T add h b n a zero LV C) as (vs & h2 & r2 & EV & E2 & F2); [unfold MAX_DIMS; lia|].
    eapply answers with (w := fun _ => fold_left add vs zero); [|eauto|].
    - apply (ein h [a] [sub] [va] [] sub dm); auto.
      + intros l. cbn [app]. split; [intros I; exists sub; split; [now left|exact I]|intros (s & [<-|[]] & I); exact I].
      + cbn; lia.
      + intros l. unfold dm. destruct (mem sub l) eqn:M; [|lia]. apply mem_In in M. apply pos_prod in P. rewrite SH in P.
        apply (proj1 (Forall_forall _ _) P). apply in_map_iff. exists l. split; [|exact M]. unfold dm. now rewrite (proj2 (mem_In sub l) M).
    - intros idx R. inversion R; subst. rewrite fold_left_sum. unfold einsum_value. cbn [app]. rewrite <- SH.
      destruct CSR. rewrite csr_add_0. f_equal. unfold elems in EV.
      assert (M : forall l vs, incl l (indices (a_shape a)) -> mapM (get h a) l = Ok vs -> map (fun e => bigsum mul one (map (fun p => snd p (map (lookup sub e) (fst p))) (combine [sub] [va]))) l = vs).
      { clear EV E2 F2. intros l. induction l as [|e l IH]; intros us I E; cbn [mapM] in E; [injection E as <-; reflexivity|].
        apply bind_Ok_inv in E as (x & Ex & E). apply bind_Ok_inv in E as (us' & Eu & E). injection E as <-. cbn [map combine fst snd bigsum fold_right].
        assert (Re : in_range e (a_shape a)) by (apply in_indices, I; now left). f_equal.
        - rewrite mul_1_r'. rewrite map_lookup; [|exact ND|rewrite (in_range_length _ _ Re); now symmetry]. unfold va. now rewrite Ex.
        - apply IH; [intros y Y; apply I; now right|exact Eu]. }
      apply M; [apply incl_refl|exact EV].
  Qed.

  (** the same labels everywhere: the elementwise product *)
  Lemma product_agree h a b va vb sub : a_shape a = a_shape b -> 0 < prod (a_shape a) -> holds h a va -> holds h b vb -> Forall letter sub -> NoDup sub ->
    length sub = length (a_shape a) -> sub <> [] -> length sub <= 32 ->
    same_answer (einsum h [a; b] [sub; sub] sub) (nd_binary (okadd mul) zero h a b) (a_shape a).
  Proof.
    intros AB P Ha Hb LS ND LE NE LM.
    set (dm := fun l => if mem sub l then lookup sub (a_shape a) l else 1).
    assert (SH : a_shape a = map dm sub).
    { rewrite <- (map_lookup sub ND (a_shape a)) at 1 by now symmetry. apply map_ext_in. intros l I. unfold dm. now rewrite (proj2 (mem_In sub l) I). }
    assert (VL : forall c v, holds h c v -> valid h c). { intros c v [H1 H2]. split; [exact H1|]. intros idx R. rewrite H2 by exact R. eauto. }
    destruct (C12_binary T (okadd mul) zero h a b (a_shape a)) as [B _]; eauto.
    { rewrite <- AB. apply GradFacts3.join_self_r, broadcastable_refl. }
    { unfold MAX_DIMS. lia. }
    assert (V : forall idx, in_range idx (a_shape a) -> (x <- get h a (bidx (a_shape a) idx) ;; y <- get h b (bidx (a_shape b) idx) ;; okadd mul x y) = Ok (mul (va idx) (vb idx))).
    { intros idx R. rewrite <- AB, bidx_same by exact R. destruct Ha as [_ Ha], Hb as [_ Hb]. rewrite Ha by exact R. rewrite <- AB in Hb. rewrite Hb by exact R. reflexivity. }
    eapply answers with (w := fun idx => mul (va idx) (vb idx)).
    - rewrite SH. apply (ein h [a; b] [sub; sub] [va; vb] sub [] dm); rewrite ?app_nil_r; auto.
      + intros l. split; [intros I; exists sub; split; [now left|exact I]|intros (s & [<-|[<-|[]]] & I); exact I].
      + cbn; lia.
      + constructor; [auto|]. constructor; [|constructor]. rewrite <- AB. auto.
      + intros l. unfold dm. destruct (mem sub l) eqn:M; [|lia]. apply mem_In in M. apply pos_prod in P. rewrite SH in P.
        apply (proj1 (Forall_forall _ _) P). apply in_map_iff. exists l. split; [|exact M]. unfold dm. now rewrite (proj2 (mem_In sub l) M).
    - destruct B as (h' & r & E & F); [intros idx R; rewrite (V idx R); eauto|]. exists h', r. split; [exact E|]. eapply fresh_result_ext; [|exact F]. exact V.
    - intros idx R. unfold einsum_value. cbn [map indices combine fst snd bigsum fold_right]. rewrite !app_nil_r, mul_1_r'.
      rewrite map_lookup; [|exact ND|rewrite (in_range_length _ _ R); now symmetry]. destruct CSR. rewrite csr_add_comm. apply csr_add_0.
  Qed.
End Agree.

(** "ii->i" as a view and diagonal *)
Lemma diagonal_agree b l bc a n : chain b l bc a -> a_shape a = [n; n] -> 0 < n ->
  exists r d, einsum_view a [#i; #i] [#i] = Ok (Some r) /\ nd_diagonal a = Ok d /\ a_shape r = [n] /\ a_shape d = [n] /\
    a_blk r = a_blk d /\ forall i, i < n -> a_off r + dot [i] (a_stride r) = a_off d + dot [i] (a_stride d).
Proof.
  intros C Sa N. pose proof (i_wf _ _ _ _ (chain_inv _ _ _ _ C)) as W.
  destruct (C54_view nat [] a [#i; #i] [#i] (fun _ => n)) as [H _]; request; auto.
  { intros l0 I. cbn in *. tauto. }
  destruct H as (r & E & SR & (V1 & _ & V3) & _); [intros l0 I; cbn in *; tauto|].
  destruct (C30_diagonal b l bc a 0 0 1 C) as (d & ED & SD & VD1 & _ & VD3); try (rewrite Sa; cbn; lia).
  { rewrite Sa. change (- Z.of_nat n < 0 < Z.of_nat n)%Z. lia. }
  rewrite Sa in SD. cbn [map] in SR. change (a_shape d = [Nat.min (n - 0) (n - 0)]) in SD. rewrite Nat.sub_0_r, Nat.min_id in SD.
  exists r, d. split; [exact E|]. split; [exact ED|]. split; [exact SR|]. split; [exact SD|]. split; [congruence|].
  intros i I. destruct (V3 [i]) as [_ ->]; [rewrite SR; repeat constructor; exact I|]. destruct (VD3 [i]) as [_ ->]; [rewrite SD; repeat constructor; exact I|].
  rewrite Sa. cbn [map lookup Z.eqb Pos.eqb length]. change (Z.to_nat (0 mod Z.of_nat 2)) with 0. change (Z.to_nat (1 mod Z.of_nat 2)) with 1.
  change (diag_index 2 0 1 0 [i]) with [i + 0; i + 0]. now rewrite Nat.add_0_r.
Qed.

(** ** "ij,jk->ik" and matmul take the same steps: no law of arithmetic is needed *)
Lemma upd_same {A} (l : list A) : forall k x, nth_error l k = Some x -> upd l k x = Some l.
Proof. induction l as [|y l IH]; intros [|k] x E; cbn in *; try discriminate; [now injection E as <-|]. now rewrite (IH k x E). Qed.
Lemma store_same {T} (h : heap T) b o x : load h b o = Ok x -> store h b o x = Ok h.
Proof.
  unfold load, store. destruct (nth_error h b) as [[l|]|] eqn:E; try discriminate. destruct (nth_error l o) as [y|] eqn:Eo; try discriminate.
  intros H. injection H as <-. rewrite (upd_same l o y Eo). now rewrite (upd_same h b (Some l) E).
Qed.
Lemma fill_same {T} (h : heap T) b x : forall c o, (forall i, i < c -> load h b (o + i) = Ok x) -> fill_uniform h (b, o) c 1 x = Ok h.
Proof.
  induction c as [|c IH]; intros o H; [reflexivity|]. cbn [fill_uniform]. unfold st. cbn [fst snd].
  rewrite store_same by (rewrite <- (Nat.add_0_r o); apply H; lia). cbn [bind]. change (padd (b, o) 1) with (b, o + 1). apply IH.
  intros i I. rewrite <- Nat.add_assoc. apply H. lia.
Qed.

Lemma matmul_same {T} (zero one : T) add mul fma (h : heap T) a b n k m : a_shape a = [n; k] -> a_shape b = [k; m] -> 0 < n -> 0 < m ->
  length (a_stride a) = 2 -> length (a_stride b) = 2 ->
  nd_einsum zero one add mul fma h [a; b] [[#i; #j]; [#j; #k]] [#i; #k] = nd_matmul zero one add mul fma h a b.
Proof.
  intros Sa Sb N M La Lb.
  destruct (prepare_ok (dims4 1 n k m) [[#i; #j]; [#j; #k]] [a; b] [#i; #k]) as (L & _ & E).
  - constructor; [|constructor; [|constructor]].
    + split; [apply letters_dec; reflexivity|]. rewrite Sa. repeat split; [exact La|cbn; unfold MAX_DIMS; lia].
    + split; [apply letters_dec; reflexivity|]. rewrite Sb. repeat split; [exact Lb|cbn; unfold MAX_DIMS; lia].
  - apply letters_dec. reflexivity.
  - request.
  - intros l I. apply (proj1 (covers [[#i; #j]; [#j; #k]] [#i; #j; #k] eq_refl eq_refl l)). cbn in *. tauto.
  - cbn. unfold MAX_ARGS. lia.
  - cbn. unfold MAX_DIMS. lia.
  - cbn [map dims4 Z.eqb Pos.eqb] in E. unfold nd_einsum, nd_matmul. rewrite Sa, Sb, Nat.eqb_refl. cbn [guard bind].
    unfold matrix_matrix, einsum_into_ptr, matmul_subs, matmul_out, nd_full. rewrite E. cbn [bind]. rewrite repeat_length.
    assert (PP : 0 < prod [n; m]) by (cbn; nia). rewrite (proj2 (Nat.eqb_neq _ _)) by lia. cbn [negb guard bind from_buffer alloc]. rewrite repeat_length.
    assert (ES : a_stride (fresh_arr (length h) (prod [n; m]) [n; m]) = rm_stride [n; m]) by (cbn [fresh_arr a_stride]; apply stride_from_shape_rm).
    rewrite ES, rm_uniform. cbn [Nat.eqb guard bind]. cbn [k_fill]. rewrite rm_uniform. cbn [Nat.eqb].
    change (a_ptr (fresh_arr (length h) (prod [n; m]) [n; m])) with (length h, 0).
    rewrite fill_same. { cbn [bind]. reflexivity. }
    intros i I. cbn [plus]. rewrite load_app_new, nth_error_repeat by exact I. reflexivity.
Qed.

(** ** C90.  The letters are written with their codes: a b c i j k are 97 98 99 105 106 107. *)
Theorem C90_dot : forall T (zero one : T) add mul, is_csr zero one add mul -> forall (h : heap T) a b va vb n,
  a_shape a = [n] -> a_shape b = [n] -> 0 < n -> holds h a va -> holds h b vb ->
  same_answer (nd_einsum zero one (okadd add) (okadd mul) (okfma add mul) h [a; b] [[105]; [105]]%Z [])
    (nd_dot zero (okadd add) (okadd mul) h a b) [].
Proof. exact @dot_agree. Qed.
Print Assumptions C90_dot.

Theorem C90_matvec : forall T (zero one : T) add mul, is_csr zero one add mul -> forall (h : heap T) a b va vb n k,
  a_shape a = [n; k] -> a_shape b = [k] -> 0 < n -> 0 < k -> holds h a va -> holds h b vb ->
  same_answer (nd_einsum zero one (okadd add) (okadd mul) (okfma add mul) h [a; b] [[105; 106]; [106]]%Z [105]%Z)
    (nd_matmul zero one (okadd add) (okadd mul) (okfma add mul) h a b) [n].
Proof. exact @matvec_agree. Qed.
Print Assumptions C90_matvec.

(** the same heap and the same array for every addition, multiplication and fused
    multiply-add, also when one of them panics: on floats the results agree bit for bit *)
Theorem C90_matmul : forall T (zero one : T) add mul fma (h : heap T) a b n k m,
  a_shape a = [n; k] -> a_shape b = [k; m] -> 0 < n -> 0 < m -> length (a_stride a) = 2 -> length (a_stride b) = 2 ->
  nd_einsum zero one add mul fma h [a; b] [[105; 106]; [106; 107]]%Z [105; 107]%Z = nd_matmul zero one add mul fma h a b.
Proof. exact @matmul_same. Qed.
Print Assumptions C90_matmul.

(** contracting the last axes of both is multiplying by the transpose *)
Theorem C90_matmul_transposed : forall T (zero one : T) add mul, is_csr zero one add mul -> forall (h : heap T) a b bt va vb n k m w,
  a_shape a = [n; k] -> a_shape b = [m; k] -> 0 < n -> 0 < k -> 0 < m -> holds h a va -> holds h b vb -> nd_T w b = Ok bt ->
  same_answer (nd_einsum zero one (okadd add) (okadd mul) (okfma add mul) h [a; b] [[105; 107]; [106; 107]]%Z [105; 106]%Z)
    (nd_matmul zero one (okadd add) (okadd mul) (okfma add mul) h a bt) [n; m].
Proof. exact @matmul_t_agree. Qed.
Print Assumptions C90_matmul_transposed.

Theorem C90_bmm : forall T (zero one : T) add mul, is_csr zero one add mul -> forall (h : heap T) a b va vb q n k m,
  a_shape a = [q; n; k] -> a_shape b = [q; k; m] -> 0 < q -> 0 < n -> 0 < k -> 0 < m -> holds h a va -> holds h b vb ->
  same_answer (nd_einsum zero one (okadd add) (okadd mul) (okfma add mul) h [a; b] [[98; 105; 106]; [98; 106; 107]]%Z [98; 105; 107]%Z)
    (nd_bmm zero one (okadd add) (okadd mul) (okfma add mul) h a b) [q; n; m].
Proof. exact @bmm_agree. Qed.
Print Assumptions C90_bmm.

Theorem C90_trace : forall T (zero one : T) add mul, is_csr zero one add mul -> forall (h : heap T) b l bc a va n,
  live h b l -> chain b l bc a -> a_shape a = [n; n] -> 0 < n -> holds h a va ->
  same_answer (nd_einsum zero one (okadd add) (okadd mul) (okfma add mul) h [a] [[105; 105]]%Z [])
    (nd_trace zero (okadd add) h a 0 0 1) [].
Proof. exact @trace_agree. Qed.
Print Assumptions C90_trace.

(** each axis its own label and none kept, for any number of axes *)
Theorem C90_sum : forall T (zero one : T) add mul, is_csr zero one add mul -> forall (h : heap T) b n a sub,
  live h b n -> chain b n false a -> 0 < prod (a_shape a) -> Forall letter sub -> NoDup sub ->
  length sub = length (a_shape a) -> sub <> [] -> length sub <= 32 ->
  same_answer (nd_einsum zero one (okadd add) (okadd mul) (okfma add mul) h [a] [sub] [])
    (nd_reduce (fun x acc => Ok (add acc x)) zero h a) [].
Proof. exact @sum_agree. Qed.
Print Assumptions C90_sum.

(** the same labels on both operands and the result *)
Theorem C90_product : forall T (zero one : T) add mul, is_csr zero one add mul -> forall (h : heap T) a b va vb sub,
  a_shape a = a_shape b -> 0 < prod (a_shape a) -> holds h a va -> holds h b vb -> Forall letter sub -> NoDup sub ->
  length sub = length (a_shape a) -> sub <> [] -> length sub <= 32 ->
  same_answer (nd_einsum zero one (okadd add) (okadd mul) (okfma add mul) h [a; b] [sub; sub] sub)
    (nd_binary (okadd mul) zero h a b) (a_shape a).
Proof. exact @product_agree. Qed.
Print Assumptions C90_product.

(** both are views of the same cells in the same order *)
Theorem C90_diagonal : forall b l bc a n, chain b l bc a -> a_shape a = [n; n] -> 0 < n ->
  exists r d, einsum_view a [105; 105]%Z [105]%Z = Ok (Some r) /\ nd_diagonal a = Ok d /\ a_shape r = [n] /\ a_shape d = [n] /\
    a_blk r = a_blk d /\ forall i, i < n -> a_off r + dot [i] (a_stride r) = a_off d + dot [i] (a_stride d).
Proof. exact diagonal_agree. Qed.
Print Assumptions C90_diagonal.

(** The laws of a semiring are needed for dot: dot adds from the front and einsum from the back,
    so in f32 the two differ on [2^24; 1; 1] . [1; 1; 1], 2^24 against 2^24 + 2. *)
Theorem C90_f32_dot_differs : exists (h : heap spec_float) a b h1 r1 h2 r2,
  let z := S754_zero false in let o := of_Z f32 1 in let ad := okadd (fadd f32) in let mu := okadd (fmul f32) in
  let fm := fun x y z => Ok (FloatDot.ffma f32 x y z) in
  chain 0 3 false a /\ chain 1 3 false b /\ live h 0 3 /\ live h 1 3 /\ a_shape a = [3] /\ a_shape b = [3] /\
  nd_einsum z o ad mu fm h [a; b] [[105]; [105]]%Z [] = Ok (h1, r1) /\ get h1 r1 [] = Ok (of_Z f32 (2 ^ 24 + 2)) /\
  nd_dot z ad mu h a b = Ok (h2, r2) /\ get h2 r2 [] = Ok (of_Z f32 (2 ^ 24)).
Proof.
  eexists [Some (map (of_Z f32) [2 ^ 24; 1; 1]%Z); Some (map (of_Z f32) [1; 1; 1]%Z)], (fresh_arr 0 3 [3]), (fresh_arr 1 3 [3]), _, _, _, _. cbv zeta.
  split; [apply Ch_new; cbn; lia|]. split; [apply Ch_new; cbn; lia|]. split; [eexists; split; reflexivity|]. split; [eexists; split; reflexivity|].
  split; [reflexivity|]. split; [reflexivity|]. split; [vm_compute; reflexivity|]. split; [vm_compute; reflexivity|]. split; vm_compute; reflexivity.
Qed.
Print Assumptions C90_f32_dot_differs.

Example C90_ex : let h := [Some [1; 2; 3; 4; 5; 6; 7; 8; 9]; Some [10; 20; 30]] in let a := fresh_arr 0 9 [3; 3] in let b := fresh_arr 1 3 [3] in
  let e := nd_einsum 0 1 (okadd Nat.add) (okadd Nat.mul) (okfma Nat.add Nat.mul) h in let show p := bind p (fun q => elems (fst q) (snd q)) in
  is_csr 0 1 Nat.add Nat.mul /\ chain 0 9 false a /\ chain 1 3 false b /\ live h 0 9 /\ live h 1 3 /\
  show (e [b; b] [[105]; [105]]%Z []) = Ok [1400] /\ show (nd_dot 0 (okadd Nat.add) (okadd Nat.mul) h b b) = Ok [1400] /\
  show (e [a; b] [[105; 106]; [106]]%Z [105]%Z) = Ok [140; 320; 500] /\
  show (e [a; a] [[105; 107]; [106; 107]]%Z [105; 106]%Z) = Ok [14; 32; 50; 32; 77; 122; 50; 122; 194] /\
  show (e [a] [[105; 105]]%Z []) = Ok [15] /\ show (e [a] [[105; 106]]%Z []) = Ok [45] /\
  show (e [a; a] [[105; 106]; [105; 106]]%Z [105; 106]%Z) = Ok [1; 4; 9; 16; 25; 36; 49; 64; 81].
Proof.
  cbv zeta. split; [exact nat_csr|]. split; [apply Ch_new; cbn; lia|]. split; [apply Ch_new; cbn; lia|]. split; [eexists; split; reflexivity|].
  split; [eexists; split; reflexivity|]. repeat split; vm_compute; reflexivity.
Qed.
