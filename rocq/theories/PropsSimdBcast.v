(** PropsSimdBcast.v: what the vectorised reductions and those of vDSP do on every view,
    broadcast ones included. *)
From Coq Require Import List Arith Lia Bool Permutation.
From Verif Require Import Base Spec Layout SpecFacts LayoutFacts Views ViewsFacts ViewsFacts2 ViewsFacts3
  Kernels Access HeapFacts KernelFacts OpFacts AccessFacts Chain ChainFacts ViewsFacts4 Reduce ReduceFacts
  Simd SimdFacts SimdOps SimdRed Vdsp VdspFacts PropsViews PropsOps PropsReduce PropsBcast PropsSimd.
Import ListNotations.
Open Scope res_scope.

(** ** kernels that are given readable cells *)
Section Kernels.
  Context {T : Type}.
  Variable L : nat.
  Hypothesis HL : L = 2 \/ L = 4.

  (** the kernels read the cells p, p + s, .. *)
  Definition holds (h : heap T) (p : ptr) (s : nat) (xs : list T) (d : T) : Prop :=
    forall i, i < length xs -> ld h (padd p (i * s)) = Ok (nth i xs d).
  Lemma holds1 h p xs d : holds h p 1 xs d -> forall i, i < length xs -> ld h (padd p i) = Ok (nth i xs d).
  Proof. intros R i I. rewrite <- (R i I), Nat.mul_1_r. reflexivity. Qed.

  Lemma covered_tree (op : T -> T -> T) e xs out :
    covers op (length xs) (fun i => nth i xs e) op (repeat (Leaf e) L) 0 out ->
    exists t, Permutation (leaves t) (repeat e L ++ xs) /\ out = Ok (teval op t).
  Proof.
    intros (t & m & I & P & Q). rewrite Nat.sub_0_r in *.
    destruct (tree_fold op (map (fun i => nth i xs e) (seq m (length xs - m))) t) as (t' & F & G).
    exists t'. split; [|rewrite Q, F; reflexivity].
    pose proof (seq_split 0 m (length xs)) as SS. rewrite !Nat.sub_0_r in SS.
    rewrite G, P, lv_repeat, <- app_assoc, <- map_app, <- SS by lia. now rewrite map_nth_seq.
  Qed.

  Lemma uniform_covers (op step : T -> T -> T) hor e h p s xs :
    (forall ts, length ts = L -> exists t, hor (map (teval op) ts) = Ok (teval op t) /\ Permutation (leaves t) (lv ts)) ->
    holds h p s xs e -> covers op (length xs) (fun i => nth i xs e) step (repeat (Leaf e) L) 0 (red_uniform L op hor step e h p (length xs) s).
  Proof.
    intros H R. unfold red_uniform. rewrite <- (teval_repeat op e L).
    pose proof (red_uniform_covers L HL op h p s (length xs) (fun i => nth i xs e) R hor H step (S (length xs)) 0 (repeat (Leaf e) L)) as C.
    rewrite Nat.mul_0_l, padd_0, Nat.sub_0_r in C. apply C; [lia|lia|apply repeat_length].
  Qed.
  Lemma contig_covers (op step : T -> T -> T) hor e h p xs :
    (forall ts, length ts = L -> exists t, hor (map (teval op) ts) = Ok (teval op t) /\ Permutation (leaves t) (lv ts)) ->
    holds h p 1 xs e -> covers op (length xs) (fun i => nth i xs e) step (repeat (Leaf e) L) 0 (red_contig L op hor step e h p (length xs)).
  Proof.
    intros H R. unfold red_contig. rewrite <- (teval_repeat op e L).
    pose proof (red_contig_covers L HL op h p (length xs) (fun i => nth i xs e) (holds1 _ _ _ _ R) hor H step (S (length xs)) 0 (repeat (Leaf e) L)) as C.
    rewrite padd_0, Nat.sub_0_r in C. apply C; [lia|lia|apply repeat_length].
  Qed.
  Lemma each_tree (op : T -> T -> T) e h p xs : holds h p 1 xs e ->
    exists t, Permutation (leaves t) (repeat e 1 ++ xs) /\ red_each L op (hor_halves op) op e h p (length xs) = Ok (teval op t).
  Proof.
    intros R. unfold red_each.
    destruct (red_each_tree L HL op h p (length xs) (fun i => nth i xs e) (holds1 _ _ _ _ R) (hor_halves op) (hor_halves_tree L HL op)
      (S (length xs)) 0 (Leaf e)) as (t & Q & P); [lia|lia|].
    rewrite padd_0, Nat.sub_0_r in Q. exists t. split; [|exact Q]. rewrite P, Nat.sub_0_r, map_nth_seq. reflexivity.
  Qed.

  (** ** kernels that run out of the block *)
  Variable h : heap T.
  Variable b n : nat.
  Hypothesis LV : live h b n.
  Variable op step : T -> T -> T.
  Variable hor : list T -> res T.
  Hypothesis Hhor : forall v, length v = L -> exists x, hor v = Ok x.

  (** some of the [c] cells from [o] on, at step [s], lies outside *)
  Definition leaves_block (o s c : nat) : Prop := exists i, i < c /\ n <= o + i * s.

  Lemma leaves_split o s c m : leaves_block o s c -> ~ leaves_block o s m -> leaves_block (o + m * s) s (c - m).
  Proof.
    intros (i & I & H) N. destruct (le_lt_dec m i) as [M|M]; [|exfalso; apply N; now exists i].
    exists (i - m). split; [lia|]. replace (o + m * s + (i - m) * s) with (o + i * s); [exact H|].
    replace i with (m + (i - m)) at 1 by lia. lia.
  Qed.

  Lemma gather_block o s c : (leaves_block o s c /\ mapM (fun i => src_ld h (src_add (Mem (b, o)) (i * s))) (seq 0 c) = Oob) \/
    (~ leaves_block o s c /\ exists vs, length vs = c /\ mapM (fun i => src_ld h (src_add (Mem (b, o)) (i * s))) (seq 0 c) = Ok vs).
  Proof.
    set (f := fun i => src_ld h (src_add (Mem (b, o)) (i * s))).
    assert (G : forall l, (exists i, In i l /\ n <= o + i * s) /\ mapM f l = Oob \/
      ~ (exists i, In i l /\ n <= o + i * s) /\ exists vs, length vs = length l /\ mapM f l = Ok vs).
    { induction l as [|i l IH]; [right; split; [intros (i & [] & _)|exists []; split; reflexivity]|]. cbn [mapM].
      change (f i) with (load h b (o + i * s)).
      destruct (live_load h b n (o + i * s) LV) as [LI LO]. destruct (le_lt_dec n (o + i * s)) as [H|H].
      - left. split; [exists i; split; [now left|exact H]|]. now rewrite LO.
      - destruct (LI H) as (x & ->). cbn [bind]. destruct IH as [[(j & J & K) E]|[NE (vs & LN & E)]].
        + left. split; [exists j; split; [now right|exact K]|]. now rewrite E.
        + right. split; [intros (j & [<-|J] & K); [lia|apply NE; eauto]|]. rewrite E. cbn [bind]. exists (x :: vs). split; [cbn [length]; congruence|reflexivity]. }
    destruct (G (seq 0 c)) as [[(i & I & K) E]|[NE (vs & LN & E)]].
    - left. apply in_seq in I. split; [exists i; split; [lia|exact K]|exact E].
    - right. rewrite seq_length in LN. split; [|now exists vs]. intros (i & I & K). apply NE. exists i. split; [apply in_seq; lia|exact K].
  Qed.

  Lemma vgather_block o s : (leaves_block o s L /\ vgather L h (Mem (b, o)) s = Oob) \/
    (~ leaves_block o s L /\ exists vs, length vs = L /\ vgather L h (Mem (b, o)) s = Ok vs).
  Proof. rewrite vgather_eq by (destruct HL; auto). apply gather_block. Qed.
  Lemma vload_block o : (leaves_block o 1 L /\ vload L h (Mem (b, o)) = Oob) \/
    (~ leaves_block o 1 L /\ exists vs, length vs = L /\ vload L h (Mem (b, o)) = Ok vs).
  Proof.
    unfold vload. rewrite (mapM_ext _ (fun i => src_ld h (src_add (Mem (b, o)) (i * 1)))); [apply gather_block|].
    intros i _. now rewrite Nat.mul_1_r.
  Qed.

  Lemma red_tail_out c : forall o s x, leaves_block o s c -> red_tail step h (b, o) c s x = Oob.
  Proof.
    induction c as [|c IH]; intros o s x H; [destruct H as (i & I & _); lia|]. cbn [red_tail]. unfold ld. cbn [fst snd].
    destruct (live_load h b n o LV) as [LI LO]. destruct (le_lt_dec n o) as [O|O]; [now rewrite LO|].
    destruct (LI O) as (y & ->). cbn [bind]. unfold padd. cbn [fst snd]. apply IH. destruct H as ([|i] & I & H); [lia|].
    exists i. split; [lia|]. replace (o + s + i * s) with (o + S i * s) by lia. exact H.
  Qed.

  Lemma map2_len (v w : list T) : length v = L -> length w = L -> length (map2 op v w) = L.
  Proof. intros A B. rewrite map2_length. lia. Qed.

  Lemma red_uniform_out fuel : forall c o s acc, c < fuel -> length acc = L -> leaves_block o s c ->
    red_uniform_go L op hor step fuel h (b, o) c s acc = Oob.
  Proof.
    pose proof (HLpos L HL) as PL. induction fuel as [|fuel IH]; intros c o s acc F LA H; [lia|]. cbn [red_uniform_go].
    destruct (Nat.leb_spec L c) as [B|B].
    - destruct (vgather_block o s) as [[_ E]|(NB & vs & LN & E)]; rewrite E; [reflexivity|]. cbn [bind]. unfold padd. cbn [fst snd].
      apply IH; [lia|now apply map2_len|]. rewrite (Nat.mul_comm s L). now apply leaves_split.
    - destruct (Hhor acc LA) as (x & ->). cbn [bind]. now apply red_tail_out.
  Qed.

  Lemma four_blocks o : (leaves_block o 1 (4 * L) /\ forall A (k : list T -> list T -> list T -> list T -> res A),
      (a <- vload L h (Mem (padd (b, o) (0 * L))) ;; b1 <- vload L h (Mem (padd (b, o) (1 * L))) ;;
       c <- vload L h (Mem (padd (b, o) (2 * L))) ;; d <- vload L h (Mem (padd (b, o) (3 * L))) ;; k a b1 c d) = Oob) \/
    (~ leaves_block o 1 (4 * L) /\ exists v1 v2 v3 v4, length v1 = L /\ length v2 = L /\ length v3 = L /\ length v4 = L /\
      vload L h (Mem (padd (b, o) (0 * L))) = Ok v1 /\ vload L h (Mem (padd (b, o) (1 * L))) = Ok v2 /\
      vload L h (Mem (padd (b, o) (2 * L))) = Ok v3 /\ vload L h (Mem (padd (b, o) (3 * L))) = Ok v4).
  Proof.
    unfold padd. cbn [fst snd].
    assert (UP : forall k, k < 4 -> leaves_block (o + k * L) 1 L -> leaves_block o 1 (4 * L)).
    { intros k K (i & I & H). exists (k * L + i). split; [nia|lia]. }
    destruct (vload_block (o + 0 * L)) as [[B E]|(N1 & v1 & L1 & E1)]; [left; split; [apply (UP 0); [lia|exact B]|intros; now rewrite E]|].
    destruct (vload_block (o + 1 * L)) as [[B E]|(N2 & v2 & L2 & E2)]; [left; split; [apply (UP 1); [lia|exact B]|intros; now rewrite E1, E]|].
    destruct (vload_block (o + 2 * L)) as [[B E]|(N3 & v3 & L3 & E3)]; [left; split; [apply (UP 2); [lia|exact B]|intros; now rewrite E1, E2, E]|].
    destruct (vload_block (o + 3 * L)) as [[B E]|(N4 & v4 & L4 & E4)]; [left; split; [apply (UP 3); [lia|exact B]|intros; now rewrite E1, E2, E3, E]|].
    right. split; [|exists v1, v2, v3, v4; auto 10]. intros (i & I & H).
    pose proof (HLpos L HL) as PL.
    destruct (le_lt_dec L i) as [A1|A1]; [|apply N1; exists i; split; [exact A1|lia]].
    destruct (le_lt_dec (2 * L) i) as [A2|A2]; [|apply N2; exists (i - L); split; lia].
    destruct (le_lt_dec (3 * L) i) as [A3|A3]; [|apply N3; exists (i - 2 * L); split; lia].
    apply N4. exists (i - 3 * L). split; lia.
  Qed.

  Lemma red_contig_out fuel : forall c o acc, c < fuel -> length acc = L -> leaves_block o 1 c ->
    red_contig_go L op hor step fuel h (b, o) c acc = Oob.
  Proof.
    pose proof (HLpos L HL) as PL. induction fuel as [|fuel IH]; intros c o acc F LA H; [lia|]. cbn [red_contig_go].
    destruct (Nat.leb_spec (4 * L) c) as [B|B].
    - destruct (four_blocks o) as [[_ E]|(NB & v1 & v2 & v3 & v4 & L1 & L2 & L3 & L4 & E1 & E2 & E3 & E4)]; [apply E|].
      rewrite E1, E2, E3, E4. cbn [bind]. unfold padd. cbn [fst snd].
      apply IH; [lia|repeat apply map2_len; assumption|]. replace (4 * L) with (4 * L * 1) at 1 by lia. now apply leaves_split.
    - destruct (Hhor acc LA) as (x & ->). cbn [bind]. now apply red_tail_out.
  Qed.
  Lemma red_each_out fuel : forall c o x, c < fuel -> leaves_block o 1 c -> red_each_go L op hor step fuel h (b, o) c x = Oob.
  Proof.
    pose proof (HLpos L HL) as PL. induction fuel as [|fuel IH]; intros c o x F H; [lia|]. cbn [red_each_go].
    destruct (Nat.leb_spec (4 * L) c) as [B|B].
    - destruct (four_blocks o) as [[_ E]|(NB & v1 & v2 & v3 & v4 & L1 & L2 & L3 & L4 & E1 & E2 & E3 & E4)]; [apply E|].
      rewrite E1, E2, E3, E4. cbn [bind].
      destruct (Hhor (map2 op (map2 op v1 v2) (map2 op v3 v4))) as (y & ->); [repeat apply map2_len; assumption|]. cbn [bind]. unfold padd. cbn [fst snd].
      apply IH; [lia|]. replace (4 * L) with (4 * L * 1) at 1 by lia. now apply leaves_split.
    - now apply red_tail_out.
  Qed.
End Kernels.

(** ** what the layout hands to the kernels *)
Section Layouts.
  Context {T : Type}.
  Variable L : nat.
  Hypothesis HL : L = 2 \/ L = 4.
  Variable h : heap T.
  Variable blk n : nat.
  Variable bc : bool.
  Variable a : arr.
  Hypothesis LV : live h blk n.
  Hypothesis C : chain blk n bc a.
  Hypothesis EV : evenly (a_shape a) (a_stride a).
  Let cells := run (prod (a_shape a)) (last (a_stride a) 0).

  Lemma sk_reduce_even contig uniform (g : T -> T -> res T) dflt :
    sk_reduce contig uniform g dflt h (a_ptr a) (a_shape a) (a_stride a) =
    if last (a_stride a) 0 =? 1 then contig h (a_ptr a) (prod (a_shape a)) else uniform h (a_ptr a) (prod (a_shape a)) (last (a_stride a) 0).
  Proof. clear HL. unfold sk_reduce. now rewrite (evenly_uniform _ _ (i_wf _ _ _ _ (chain_inv _ _ _ _ C)) EV). Qed.

  Lemma cells_hold d : (forall o, In o cells -> a_off a + o < n) ->
    exists vs, at_steps h a cells = Ok vs /\ length vs = prod (a_shape a) /\ holds h (a_ptr a) (last (a_stride a) 0) vs d.
  Proof.
    clear HL EV. intros H. pose proof LV as LV'. rewrite <- (i_blk _ _ _ _ (chain_inv _ _ _ _ C)) in LV'.
    destruct (at_steps_ok h a n cells LV' H) as (vs & E). exists vs. split; [exact E|].
    assert (LN : length vs = prod (a_shape a)).
    { unfold at_steps in E. apply mapM_length in E. rewrite E. unfold cells, run. now rewrite map_length, seq_length. }
    split; [exact LN|]. intros i I. unfold at_steps in E.
    rewrite LN in I. destruct (mapM_nth _ _ _ i _ E (run_nth _ _ i I)) as (y & NY & EY).
    apply (nth_error_nth _ _ d) in NY. rewrite NY. exact EY.
  Qed.

  Lemma cells_leave : (exists o, In o cells /\ n <= a_off a + o) ->
    live h (a_blk a) n /\ leaves_block n (a_off a) (last (a_stride a) 0) (prod (a_shape a)).
  Proof.
    clear HL EV. intros (o & I & H). rewrite (i_blk _ _ _ _ (chain_inv _ _ _ _ C)). split; [exact LV|].
    unfold cells, run in I. apply in_map_iff in I as (i & <- & I). apply in_seq in I. exists i. split; [lia|exact H].
  Qed.
End Layouts.

Lemma pairs_total {T} L (op : T -> T -> T) : L = 2 \/ L = 4 -> forall v, length v = L -> exists x, hor_pairs op v = Ok x.
Proof. intros [-> | ->] v E; [destruct v as [|? [|? [|]]]|destruct v as [|? [|? [|? [|? [|]]]]]]; try discriminate; eexists; reflexivity. Qed.
Lemma halves_total {T} L (op : T -> T -> T) : L = 2 \/ L = 4 -> forall v, length v = L -> exists x, hor_halves op v = Ok x.
Proof. intros [-> | ->] v E; [destruct v as [|? [|? [|]]]|destruct v as [|? [|? [|? [|? [|]]]]]]; try discriminate; eexists; reflexivity. Qed.

(** ** C50 on every reachable view whose strides pass the test of has_uniform_stride,
    broadcast or not.  The vectorised sum and product combine, in some order and bracketing,
    the cells of a run with the last stride as its step, each once, and 1 to L units; they go
    out of bounds exactly when the run leaves the buffer.  (C65_reduce_run says the same
    about the portable loop, C65_reduce_right when these cells are the elements.) *)
Theorem C50_run_sum : forall T L (add : T -> T -> T) zero (h : heap T) blk n bc a, L = 2 \/ L = 4 ->
  live h blk n -> chain blk n bc a -> evenly (a_shape a) (a_stride a) ->
  let cells := run (prod (a_shape a)) (last (a_stride a) 0) in
  ((forall o, In o cells -> a_off a + o < n) ->
     exists vs t k h' r, at_steps h a cells = Ok vs /\ snd_sum L add zero h a = Ok (h', r) /\ 1 <= k <= L /\
       Permutation (leaves t) (repeat zero k ++ vs) /\ fresh_result h h' r [] (fun _ => Ok (teval add t))) /\
  ((exists o, In o cells /\ n <= a_off a + o) -> snd_sum L add zero h a = Oob).
Proof.
  intros T L add zero h blk n bc a HL LV C EV cells. pose proof (HLpos L HL) as PL. unfold snd_sum. rewrite (sk_reduce_even h blk n bc a C EV). split.
  - intros H. destruct (cells_hold h blk n bc a LV C zero H) as (vs & E & LN & R). rewrite <- LN.
    assert (Q : exists t, Permutation (leaves t) (repeat zero L ++ vs) /\
      (if last (a_stride a) 0 =? 1 then simd_sum_contiguous L add zero h (a_ptr a) (length vs)
       else simd_sum_uniform L add zero h (a_ptr a) (length vs) (last (a_stride a) 0)) = Ok (teval add t)).
    { destruct (Nat.eqb_spec (last (a_stride a) 0) 1) as [E1|_].
      - rewrite E1 in R. apply (covered_tree L HL). exact (contig_covers L HL add add (hor_pairs add) zero h (a_ptr a) vs (hor_pairs_tree L HL add) R).
      - apply (covered_tree L HL). exact (uniform_covers L HL add add (hor_pairs add) zero h (a_ptr a) _ vs (hor_pairs_tree L HL add) R). }
    destruct Q as (t & P & ->). cbn [bind]. destruct (scalar_result h (teval add t)) as (h' & r & S & F).
    exists vs, t, L, h', r. repeat split; auto; try apply F.
  - intros H. destruct (cells_leave h blk n bc a LV C H) as [LV' B]. destruct (Nat.eqb_spec (last (a_stride a) 0) 1) as [E1|_].
    + rewrite E1 in B. unfold simd_sum_contiguous, red_contig, a_ptr.
      rewrite (red_contig_out L HL h _ n LV' add add _ (pairs_total L add HL)); [reflexivity|lia|apply repeat_length|exact B].
    + unfold simd_sum_uniform, red_uniform, a_ptr.
      rewrite (red_uniform_out L HL h _ n LV' add add _ (pairs_total L add HL)); [reflexivity|lia|apply repeat_length|exact B].
Qed.
Print Assumptions C50_run_sum.

Theorem C50_run_product : forall T L (mul : T -> T -> T) one (h : heap T) blk n bc a, L = 2 \/ L = 4 ->
  live h blk n -> chain blk n bc a -> evenly (a_shape a) (a_stride a) ->
  let cells := run (prod (a_shape a)) (last (a_stride a) 0) in
  ((forall o, In o cells -> a_off a + o < n) ->
     exists vs t k h' r, at_steps h a cells = Ok vs /\ snd_product L mul one h a = Ok (h', r) /\ 1 <= k <= L /\
       Permutation (leaves t) (repeat one k ++ vs) /\ fresh_result h h' r [] (fun _ => Ok (teval mul t))) /\
  ((exists o, In o cells /\ n <= a_off a + o) -> snd_product L mul one h a = Oob).
Proof.
  intros T L mul one h blk n bc a HL LV C EV cells. pose proof (HLpos L HL) as PL. unfold snd_product. rewrite (sk_reduce_even h blk n bc a C EV). split.
  - intros H. destruct (cells_hold h blk n bc a LV C one H) as (vs & E & LN & R). rewrite <- LN.
    assert (Q : exists t k, 1 <= k <= L /\ Permutation (leaves t) (repeat one k ++ vs) /\
      (if last (a_stride a) 0 =? 1 then simd_product_contiguous L mul one h (a_ptr a) (length vs)
       else simd_product_uniform L mul one h (a_ptr a) (length vs) (last (a_stride a) 0)) = Ok (teval mul t)).
    { destruct (Nat.eqb_spec (last (a_stride a) 0) 1) as [E1|_].
      - rewrite E1 in R. destruct (each_tree L HL mul one h (a_ptr a) vs R) as (t & P & Q). exists t, 1. split; [lia|]. split; [exact P|exact Q].
      - destruct (covered_tree L HL mul one vs _ (uniform_covers L HL mul mul (hor_halves mul) one h (a_ptr a) _ vs (hor_halves_tree L HL mul) R)) as (t & P & Q).
        exists t, L. split; [lia|]. split; [exact P|exact Q]. }
    destruct Q as (t & k & K & P & ->). cbn [bind]. destruct (scalar_result h (teval mul t)) as (h' & r & S & F).
    exists vs, t, k, h', r. split; [exact E|]. split; [exact S|]. split; [exact K|]. split; [exact P|exact F].
  - intros H. destruct (cells_leave h blk n bc a LV C H) as [LV' B]. destruct (Nat.eqb_spec (last (a_stride a) 0) 1) as [E1|_].
    + rewrite E1 in B. unfold simd_product_contiguous, red_each, a_ptr.
      rewrite (red_each_out L HL h _ n LV' mul mul _ (halves_total L mul HL)); [reflexivity|lia|exact B].
    + unfold simd_product_uniform, red_uniform, a_ptr.
      rewrite (red_uniform_out L HL h _ n LV' mul mul _ (halves_total L mul HL)); [reflexivity|lia|apply repeat_length|exact B].
Qed.
Print Assumptions C50_run_product.

(** min and max of the same cells, without NaN: the result is the start value or a cell, and
    bounds them all *)
Import SpecFloat.
Theorem C50_run_min : forall L (h : heap spec_float) blk n bc a top, L = 2 \/ L = 4 -> nan top = false ->
  live h blk n -> chain blk n bc a -> evenly (a_shape a) (a_stride a) ->
  let cells := run (prod (a_shape a)) (last (a_stride a) 0) in
  ((forall o, In o cells -> a_off a + o < n) ->
     exists vs, at_steps h a cells = Ok vs /\ (Forall (fun x => nan x = false) vs ->
       exists v h' r, snd_min L SFltb lane_min top h a = Ok (h', r) /\ fresh_result h h' r [] (fun _ => Ok v) /\
         In v (top :: vs) /\ forall x, In x (top :: vs) -> fle v x)) /\
  ((exists o, In o cells /\ n <= a_off a + o) -> snd_min L SFltb lane_min top h a = Oob).
Proof.
  intros L h blk n bc a top HL NT LV C EV cells. pose proof (HLpos L HL) as PL. unfold snd_min. rewrite (sk_reduce_even h blk n bc a C EV). split.
  - intros H. destruct (cells_hold h blk n bc a LV C top H) as (vs & E & LN & R). rewrite <- LN. exists vs. split; [exact E|]. intros NV.
    pose proof (fun out => covers_least L HL (fun x => nan x = false) fle fle_refl fle_trans lane_min (pmin SFltb) lane_min_ok pmin_ok
      (length vs) (fun i => nth i vs top) top out NT) as CL. rewrite map_nth_seq in CL. specialize (fun out => CL out NV).
    assert (Q : exists v, (if last (a_stride a) 0 =? 1 then simd_min_contiguous L SFltb lane_min top h (a_ptr a) (length vs)
       else simd_min_uniform L SFltb lane_min top h (a_ptr a) (length vs) (last (a_stride a) 0)) = Ok v /\ least fle v (top :: vs)).
    { destruct (Nat.eqb_spec (last (a_stride a) 0) 1) as [E1|_]; apply CL.
      - rewrite E1 in R. exact (contig_covers L HL lane_min (pmin SFltb) (hor_pairs lane_min) top h (a_ptr a) vs (hor_pairs_tree L HL lane_min) R).
      - exact (uniform_covers L HL lane_min (pmin SFltb) (hor_pairs lane_min) top h (a_ptr a) _ vs (hor_pairs_tree L HL lane_min) R). }
    destruct Q as (v & -> & I & B). cbn [bind]. destruct (scalar_result h v) as (h' & r & S & F). exists v, h', r. auto.
  - intros H. destruct (cells_leave h blk n bc a LV C H) as [LV' B]. destruct (Nat.eqb_spec (last (a_stride a) 0) 1) as [E1|_].
    + rewrite E1 in B. unfold simd_min_contiguous, red_contig, a_ptr.
      rewrite (red_contig_out L HL h _ n LV' lane_min _ _ (pairs_total L lane_min HL)); [reflexivity|lia|apply repeat_length|exact B].
    + unfold simd_min_uniform, red_uniform, a_ptr.
      rewrite (red_uniform_out L HL h _ n LV' lane_min _ _ (pairs_total L lane_min HL)); [reflexivity|lia|apply repeat_length|exact B].
Qed.
Print Assumptions C50_run_min.
Theorem C50_run_max : forall L (h : heap spec_float) blk n bc a bot, L = 2 \/ L = 4 -> nan bot = false ->
  live h blk n -> chain blk n bc a -> evenly (a_shape a) (a_stride a) ->
  let cells := run (prod (a_shape a)) (last (a_stride a) 0) in
  ((forall o, In o cells -> a_off a + o < n) ->
     exists vs, at_steps h a cells = Ok vs /\ (Forall (fun x => nan x = false) vs ->
       exists v h' r, snd_max L SFltb lane_max bot h a = Ok (h', r) /\ fresh_result h h' r [] (fun _ => Ok v) /\
         In v (bot :: vs) /\ forall x, In x (bot :: vs) -> fle x v)) /\
  ((exists o, In o cells /\ n <= a_off a + o) -> snd_max L SFltb lane_max bot h a = Oob).
Proof.
  intros L h blk n bc a bot HL NT LV C EV cells. pose proof (HLpos L HL) as PL. unfold snd_max. rewrite (sk_reduce_even h blk n bc a C EV). split.
  - intros H. destruct (cells_hold h blk n bc a LV C bot H) as (vs & E & LN & R). rewrite <- LN. exists vs. split; [exact E|]. intros NV.
    pose proof (fun out => covers_least L HL (fun x => nan x = false) (fun x y => fle y x) fle_refl (fun x y z X Y Z H1 H2 => fle_trans z y x Z Y X H2 H1)
      lane_max (pmax SFltb) lane_max_ok pmax_ok (length vs) (fun i => nth i vs bot) bot out NT) as CL. rewrite map_nth_seq in CL. specialize (fun out => CL out NV).
    assert (Q : exists v, (if last (a_stride a) 0 =? 1 then simd_max_contiguous L SFltb lane_max bot h (a_ptr a) (length vs)
       else simd_max_uniform L SFltb lane_max bot h (a_ptr a) (length vs) (last (a_stride a) 0)) = Ok v /\ least (fun x y => fle y x) v (bot :: vs)).
    { destruct (Nat.eqb_spec (last (a_stride a) 0) 1) as [E1|_]; apply CL.
      - rewrite E1 in R. exact (contig_covers L HL lane_max (pmax SFltb) (hor_pairs lane_max) bot h (a_ptr a) vs (hor_pairs_tree L HL lane_max) R).
      - exact (uniform_covers L HL lane_max (pmax SFltb) (hor_pairs lane_max) bot h (a_ptr a) _ vs (hor_pairs_tree L HL lane_max) R). }
    destruct Q as (v & -> & I & B). cbn [bind]. destruct (scalar_result h v) as (h' & r & S & F). exists v, h', r. auto.
  - intros H. destruct (cells_leave h blk n bc a LV C H) as [LV' B]. destruct (Nat.eqb_spec (last (a_stride a) 0) 1) as [E1|_].
    + rewrite E1 in B. unfold simd_max_contiguous, red_contig, a_ptr.
      rewrite (red_contig_out L HL h _ n LV' lane_max _ _ (pairs_total L lane_max HL)); [reflexivity|lia|apply repeat_length|exact B].
    + unfold simd_max_uniform, red_uniform, a_ptr.
      rewrite (red_uniform_out L HL h _ n LV' lane_max _ _ (pairs_total L lane_max HL)); [reflexivity|lia|apply repeat_length|exact B].
Qed.
Print Assumptions C50_run_max.

(** *** C50 fails on broadcast views: the first three of twelve cells, repeated twice, are
    summed as the first six cells; repeated six times, the run of 18 cells leaves the buffer. *)
Definition bview (sh : list nat) : res arr := r <- nd_slice (fresh_arr 0 12 [12]) [ITo 3] ;; nd_broadcast_to r sh.
Lemma bview_chain sh r : bview sh = Ok r -> chain 0 12 true r.
Proof.
  unfold bview. intros E. apply bind_Ok_inv in E as (r1 & E1 & E2). eapply (Ch_broadcast 0 12 false); [|exact E2].
  eapply (Ch_slice 0 12 false (fresh_arr 0 12 [12])); [apply Ch_new; cbn; lia| |exact E1]. split; [cbn; lia|repeat constructor].
Qed.
Theorem C50_broadcast_sum_refuted : exists a b h' r, let h := [Some (seq 0 12)] in
  chain 0 12 true a /\ chain 0 12 true b /\ live h 0 12 /\
  elems h a = Ok [0; 1; 2; 0; 1; 2] /\ snd_sum 2 Nat.add 0 h a = Ok (h', r) /\ get h' r [] = Ok 15 /\
  (exists vs, elems h b = Ok vs) /\ snd_sum 2 Nat.add 0 h b = Oob.
Proof.
  destruct (bview [2; 3]) as [a| |] eqn:E1; try discriminate. destruct (bview [6; 3]) as [b| |] eqn:E2; try discriminate.
  exists a, b. eexists _, _. split; [exact (bview_chain _ _ E1)|]. split; [exact (bview_chain _ _ E2)|].
  split; [eexists; split; reflexivity|]. vm_compute in E1, E2. injection E1 as <-. injection E2 as <-.
  split; [vm_compute; reflexivity|]. split; [vm_compute; reflexivity|]. split; [vm_compute; reflexivity|].
  split; [eexists; vm_compute; reflexivity|vm_compute; reflexivity].
Qed.
Print Assumptions C50_broadcast_sum_refuted.
Example C50_run_ex : match bview [2; 3] with
  | Ok a => a_shape a = [2; 3] /\ a_stride a = [0; 1] /\ run (prod (a_shape a)) (last (a_stride a) 0) = [0; 1; 2; 3; 4; 5] /\
      at_steps [Some (seq 1 12)] a [0; 1; 2; 3; 4; 5] = Ok [1; 2; 3; 4; 5; 6] /\
      match snd_product 2 Nat.mul 1 [Some (seq 1 12)] a with Ok (h', r) => get h' r [] = Ok 720 | _ => False end
  | _ => False end.
Proof. vm_compute. repeat split; reflexivity. Qed.

(** ** C53 on the same views: the library is handed the cells of the run, whatever it computes
    from them *)
Theorem C53_run : forall T (lib : list T -> T) g dflt (h : heap T) blk n bc a,
  live h blk n -> chain blk n bc a -> evenly (a_shape a) (a_stride a) ->
  let cells := run (prod (a_shape a)) (last (a_stride a) 0) in
  ((forall o, In o cells -> a_off a + o < n) ->
     exists vs h' r, at_steps h a cells = Ok vs /\ vnd_reduce lib g dflt h a = Ok (h', r) /\ fresh_result h h' r [] (fun _ => Ok (lib vs))) /\
  ((exists o, In o cells /\ n <= a_off a + o) -> vnd_reduce lib g dflt h a = Oob).
Proof.
  intros T lib g dflt h blk n bc a LV C EV cells. unfold vnd_reduce. rewrite (sk_reduce_even h blk n bc a C EV).
  set (s := last (a_stride a) 0) in *. set (c := prod (a_shape a)) in *.
  assert (Q : (if s =? 1 then vdsp_red lib h (a_ptr a) c 1 else vdsp_red lib h (a_ptr a) c s) = vdsp_red lib h (a_ptr a) c s).
  { destruct (Nat.eqb_spec s 1) as [-> |_]; reflexivity. }
  rewrite Q. assert (R : vdsp_red lib h (a_ptr a) c s = (xs <- at_steps h a cells ;; Ok (lib xs))).
  { unfold vdsp_red, at_steps, cells, run, vdsp_read. now rewrite mapM_map. }
  rewrite R. pose proof LV as LV'. rewrite <- (i_blk _ _ _ _ (chain_inv _ _ _ _ C)) in LV'. split; intros H.
  - destruct (at_steps_ok h a n cells LV' H) as (vs & E). rewrite E. cbn [bind].
    destruct (scalar_result h (lib vs)) as (h' & r & S & F). exists vs, h', r. auto.
  - now rewrite (at_steps_oob h a n cells LV' H).
Qed.
Print Assumptions C53_run.
Example C53_run_ex : match bview [2; 3] with
  | Ok a => chain 0 12 true a /\ match vnd_reduce (fold_right Nat.add 0) (fun v acc => Ok (acc + v)) 0 [Some (seq 1 12)] a with
      Ok (h', r) => get h' r [] = Ok 21 | _ => False end
  | _ => False end.
Proof. destruct (bview [2; 3]) as [a| |] eqn:E; try discriminate. split; [exact (bview_chain _ _ E)|]. vm_compute in E. injection E as <-. vm_compute. reflexivity. Qed.
