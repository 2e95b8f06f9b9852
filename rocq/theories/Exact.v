(** Exact.v: dot, matmul, bmm and einsum computed with inexact elements, compared with the
    same operation in an exact algebra. *)
From Coq Require Import List Arith Lia Bool ZArith.
From Verif Require Import Base Spec Layout SpecFacts LayoutFacts Views ViewsFacts ViewsFacts2 ViewsFacts3
  Kernels Access HeapFacts KernelFacts OpFacts AccessFacts Chain ChainFacts ViewsFacts4 Reduce ReduceFacts
  PropsViews PropsOps PropsReduce Einsum EinsumFacts EinsumParse EinsumFacts7 PropsEinsum
  Simd SimdFacts SimdRed PropsSimd Param.
Import ListNotations.
Open Scope res_scope.

(** ** the heap of exact values *)
Definition lift {T U} (e : T -> U) (h : heap T) : heap U := map (option_map (map e)) h.
Lemma lift_load {T U} (e : T -> U) h c o : load (lift e h) c o = match load h c o with Ok x => Ok (e x) | Panic => Panic | Oob => Oob end.
Proof.
  unfold load, lift. rewrite nth_error_map. destruct (nth_error h c) as [[l|]|]; cbn [option_map]; try reflexivity. rewrite nth_error_map. now destruct (nth_error l o).
Qed.
Lemma lift_holds {T U} (e : T -> U) h a v : holds h a v -> holds (lift e h) a (fun idx => e (v idx)).
Proof. intros [L H]. split; [exact L|]. intros idx R. specialize (H idx R). unfold get in *. now rewrite lift_load, H. Qed.
Lemma lift_cells {T U} (R : T -> U -> Prop) G (e : T -> U) h : (forall x, R x (e x) /\ G (e x)) -> cells R G h (lift e h).
Proof. intros H. split; [unfold lift; now rewrite map_length|]. intros c o. rewrite lift_load. destruct (load h c o) as [x| |]; cbn; auto. apply H. Qed.

Lemma holds_live_elem {T} (h : heap T) a v : Forall (lt 0) (a_shape a) -> holds h a v -> (a_blk a < length h).
Proof. intros P H. eapply holds_live; eassumption. Qed.

(** [R x u]: the element [x] of the code stands for the exact [u]; [G u]: [u] may be a
    factor of a product; [e x] is what the input element [x] stands for *)
Record inexact {T U} (R : T -> U -> Prop) (G : U -> Prop) (zero one : T) (add mul : T -> T -> T) (fma : T -> T -> T -> T)
  (zero' one' : U) (add' mul' : U -> U -> U) (e : T -> U) : Prop := mkInexact {
  Rzero : R zero zero';
  Rone : R one one';
  Radd : forall x a y b, R x a -> R y b -> R (add x y) (add' a b);
  Gadd : forall a b, G a \/ G b -> G (add' a b);
  Rmul : forall x a y b, R x a -> G a -> R y b -> G b -> R (mul x y) (mul' a b);
  Gmul : forall a b, G a -> G b -> G (mul' a b);
  Rmul1 : forall y b, R y b -> G b -> R (mul one y) (mul' one' b);
  Gmul1 : forall b, G b -> G (mul' one' b);
  Rfma : forall x a y b z c, R x a -> G a -> R y b -> G b -> R z c -> R (fma x y z) (add' (mul' a b) c);
  CSR : is_csr zero' one' add' mul';
  E : forall x, R x (e x) /\ G (e x) }.

(** every operation of the sum-of-products family, from the elements [T] the code computes
    with to the exact algebra [U] *)
Section Instance.
  Context {T U : Type} {R : T -> U -> Prop} {G : U -> Prop} {zero one : T} {add mul : T -> T -> T} {fma : T -> T -> T -> T}
          {zero' one' : U} {add' mul' : U -> U -> U} {e : T -> U}.
  Hypothesis IN : inexact R G zero one add mul fma zero' one' add' mul' e.
  Let Rzero := Rzero _ _ _ _ _ _ _ _ _ _ _ _ IN.
  Let Rone := Rone _ _ _ _ _ _ _ _ _ _ _ _ IN.
  Let Radd := Radd _ _ _ _ _ _ _ _ _ _ _ _ IN.
  Let Gadd := Gadd _ _ _ _ _ _ _ _ _ _ _ _ IN.
  Let Rmul := Rmul _ _ _ _ _ _ _ _ _ _ _ _ IN.
  Let Gmul := Gmul _ _ _ _ _ _ _ _ _ _ _ _ IN.
  Let Rmul1 := Rmul1 _ _ _ _ _ _ _ _ _ _ _ _ IN.
  Let Gmul1 := Gmul1 _ _ _ _ _ _ _ _ _ _ _ _ IN.
  Let Rfma := Rfma _ _ _ _ _ _ _ _ _ _ _ _ IN.
  Let CSR := CSR _ _ _ _ _ _ _ _ _ _ _ _ IN.
  Let E := E _ _ _ _ _ _ _ _ _ _ _ _ IN.
  Let addM := fun x y => Ok (add x y).
  Let mulM := fun x y => Ok (mul x y).
  Let fmaM := fun x y z => Ok (fma x y z).

  Definition result (R : T -> U -> Prop) (h : heap T) (x : res (heap T * arr)) (sh : list nat) (val' : list nat -> U) : Prop :=
    exists h' r val, x = Ok (h', r) /\ fresh_result h h' r sh (fun idx => Ok (val idx)) /\ forall idx, in_range idx sh -> R (val idx) (val' idx).

  Lemma move h sh val' x y : (0 < prod sh) -> rres (top R G h) x y ->
    (exists h2 r, y = Ok (h2, r) /\ fresh_result (lift e h) h2 r sh (fun idx => Ok (val' idx))) -> result R h x sh val'.
  Proof. intros P X Y. exact (transfer R G zero add mul fma zero' add' mul' h (lift e h) sh val' x y (lift_cells R G e h E) P X Y). Qed.

  Section Binary.
    Variables (h : heap T) (a b : arr) (va vb : list nat -> T).
    Hypothesis HA : holds h a va.
    Hypothesis HB : holds h b vb.
    Let wa := fun idx => e (va idx).
    Let wb := fun idx => e (vb idx).
    Ltac live H SH := eapply holds_live_elem; [rewrite SH; repeat constructor; assumption|exact H].

    Lemma i_dot n : a_shape a = [n] -> a_shape b = [n] -> (0 < n) ->
      result R h (nd_dot zero addM mulM h a b) [] (fun _ => bigsum add' zero' (map (fun k => mul' (wa [k]) (wb [k])) (seq 0 n))).
    Proof.
      intros SA SB P. eapply move; [cbn; lia| |exact (C26_dot U zero' one' add' mul' CSR (lift e h) a b wa wb n SA SB P (lift_holds e h a va HA) (lift_holds e h b vb HB))].
      apply (t_dot R G zero add mul fma zero' add' mul'); auto; [apply lift_cells, E|live HA SA|live HB SB].
    Qed.
    Lemma i_matvec n k : a_shape a = [n; k] -> a_shape b = [k] -> (0 < n) -> (0 < k) ->
      result R h (nd_matmul zero one addM mulM fmaM h a b) [n] (fun idx => bigsum add' zero' (map (fun t => mul' (wa [hd 0 idx; t]) (wb [t])) (seq 0 k))).
    Proof.
      intros SA SB P P'. eapply move; [cbn; lia| |exact (C26_matvec U zero' one' add' mul' CSR (lift e h) a b wa wb n k SA SB P P' (lift_holds e h a va HA) (lift_holds e h b vb HB))].
      apply (t_matmul R G zero one add mul fma zero' one' add' mul'); auto; [apply lift_cells, E|live HA SA|live HB SB].
    Qed.
    Lemma i_matmul n k m : a_shape a = [n; k] -> a_shape b = [k; m] -> (0 < n) -> (0 < k) -> (0 < m) ->
      result R h (nd_matmul zero one addM mulM fmaM h a b) [n; m] (fun idx => bigsum add' zero' (map (fun t => mul' (wa [nth 0 idx 0; t]) (wb [t; nth 1 idx 0])) (seq 0 k))).
    Proof.
      intros SA SB P P' P2. eapply move; [cbn; nia| |exact (C26_matmul U zero' one' add' mul' CSR (lift e h) a b wa wb n k m SA SB P P' P2 (lift_holds e h a va HA) (lift_holds e h b vb HB))].
      apply (t_matmul R G zero one add mul fma zero' one' add' mul'); auto; [apply lift_cells, E|live HA SA|live HB SB].
    Qed.
    Lemma i_bmm q n k m : a_shape a = [q; n; k] -> a_shape b = [q; k; m] -> (0 < q) -> (0 < n) -> (0 < k) -> (0 < m) ->
      result R h (nd_bmm zero one addM mulM fmaM h a b) [q; n; m] (fun idx => bigsum add' zero' (map (fun t => mul' (wa [nth 0 idx 0; nth 1 idx 0; t]) (wb [nth 0 idx 0; t; nth 2 idx 0])) (seq 0 k))).
    Proof.
      intros SA SB P P' P2 P3. eapply move; [cbn; nia| |exact (C26_bmm U zero' one' add' mul' CSR (lift e h) a b wa wb q n k m SA SB P P' P2 P3 (lift_holds e h a va HA) (lift_holds e h b vb HB))].
      apply (t_bmm R G zero one add mul fma zero' one' add' mul'); auto; [apply lift_cells, E|live HA SA|live HB SB].
    Qed.
    Lemma i_smatmul L n k m : L = 2 \/ L = 4 -> a_shape a = [n; k] -> a_shape b = [k; m] -> (0 < n) -> (0 < k) -> (0 < m) ->
      result R h (snd_matmul L zero one add mul fma h a b) [n; m] (fun idx => bigsum add' zero' (map (fun t => mul' (wa [nth 0 idx 0; t]) (wb [t; nth 1 idx 0])) (seq 0 k))).
    Proof.
      intros HL SA SB P P' P2. eapply move; [cbn; nia| |exact (C51_matmul_partial U L zero' one' add' mul' HL CSR (lift e h) a b wa wb n k m SA SB P P' P2 (lift_holds e h a va HA) (lift_holds e h b vb HB))].
      apply (t_smatmul R G zero one add mul fma zero' one' add' mul'); auto; [apply lift_cells, E|live HA SA|live HB SB].
    Qed.
    Lemma i_sbmm L q n k m : L = 2 \/ L = 4 -> a_shape a = [q; n; k] -> a_shape b = [q; k; m] -> (0 < q) -> (0 < n) -> (0 < k) -> (0 < m) ->
      result R h (snd_bmm L zero one add mul fma h a b) [q; n; m] (fun idx => bigsum add' zero' (map (fun t => mul' (wa [nth 0 idx 0; nth 1 idx 0; t]) (wb [nth 0 idx 0; t; nth 2 idx 0])) (seq 0 k))).
    Proof.
      intros HL SA SB P P' P2 P3. eapply move; [cbn; nia| |exact (C51_bmm_partial U L zero' one' add' mul' HL CSR (lift e h) a b wa wb q n k m SA SB P P' P2 P3 (lift_holds e h a va HA) (lift_holds e h b vb HB))].
      apply (t_sbmm R G zero one add mul fma zero' one' add' mul'); auto; [apply lift_cells, E|live HA SA|live HB SB].
    Qed.
  End Binary.

  Section Einsum.
    Variables (h : heap T) (ops : list arr) (subs : list (list Z)) (vals : list (list nat -> T)) (out sm : list Z) (dm : Z -> nat).
    Hypothesis HS : Forall (Forall letter) subs.
    Hypothesis HO : Forall letter out.
    Hypothesis ND : NoDup (out ++ sm).
    Hypothesis CV : forall l, In l (out ++ sm) <-> exists s, In s subs /\ In l s.
    Hypothesis NE : (out ++ sm)%list <> [].
    Hypothesis L32 : (length (out ++ sm) <= 32).
    Hypothesis L15 : (length ops <= 15).
    Hypothesis SH : Forall2 (fun s a => a_shape a = map dm s /\ (length s <= 32)) subs ops.
    Hypothesis HV : Forall2 (holds h) ops vals.
    Hypothesis PD : forall l, In l (out ++ sm) -> (0 < dm l).
    Let wals : list (list nat -> U) := map (fun v idx => e (v idx)) vals.

    Lemma wals_holds : Forall2 (holds (lift e h)) ops wals.
    Proof. unfold wals. clear - HV. induction HV; constructor; auto. now apply lift_holds. Qed.
    Lemma ops_live : Forall (fun a => (a_blk a < length h)) ops.
    Proof.
      assert (C : forall s, In s subs -> Forall (lt 0) (map dm s)).
      { intros s I. rewrite Forall_map, Forall_forall. intros l Il. apply PD, CV. eauto. }
      clear - SH HV C. revert vals HV. induction SH as [|s a subs' ops' [Ea _] SH' IH]; intros vals HV; [constructor|].
      inversion HV as [|? v ? vals' H1 H2]; subst. constructor.
      - eapply holds_live_elem; [rewrite Ea; apply C; now left|exact H1].
      - eapply IH; [assumption| |exact H2]. intros s' I. apply C. now right.
    Qed.
    Lemma out_prod : (0 < prod (map dm out)).
    Proof. apply pos_prod'. rewrite Forall_map, Forall_forall. intros l I. apply PD, in_or_app. now left. Qed.

    Lemma i_einsum : result R h (nd_einsum zero one addM mulM fmaM h ops subs out) (map dm out) (einsum_value zero' one' add' mul' dm subs wals out sm).
    Proof.
      eapply move; [apply out_prod| |exact (C27_einsum_partial U zero' one' add' mul' CSR (lift e h) ops subs wals out sm dm HS HO ND CV NE L32 L15 SH wals_holds PD)].
      apply (t_einsum R G zero one add mul fma zero' one' add' mul'); auto; [apply lift_cells, E|apply ops_live].
    Qed.
    Lemma i_seinsum L : L = 2 \/ L = 4 -> result R h (snd_einsum L zero one add mul fma h ops subs out) (map dm out) (einsum_value zero' one' add' mul' dm subs wals out sm).
    Proof.
      intros HL. eapply move; [apply out_prod| |exact (C51_einsum_partial U L zero' one' add' mul' HL CSR (lift e h) ops subs wals out sm dm HS HO ND CV NE L32 L15 SH wals_holds PD)].
      apply (t_seinsum R G zero one add mul fma zero' one' add' mul'); auto; [apply lift_cells, E|apply ops_live].
    Qed.
  End Einsum.
End Instance.
