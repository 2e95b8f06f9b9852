(** PropsEinsum.v: einsum, dot, matmul, bmm, trace, and the loop-order optimisation. *)
From Coq Require Import List Arith Lia Bool ZArith Permutation.
From Verif Require Import Base Spec Layout SpecFacts LayoutFacts Views ViewsFacts ViewsFacts2 ViewsFacts3
  Kernels Access HeapFacts KernelFacts OpFacts AccessFacts Chain ChainFacts ViewsFacts4 Reduce ReduceFacts
  Einsum EinsumFacts EinsumFacts2 EinsumFacts3 EinsumFacts4 EinsumFacts5 EinsumFacts6 EinsumFacts7 EinsumFacts8 PropsViews PropsOps PropsReduce.
Import ListNotations.
Open Scope res_scope.

(** Elements form a commutative semiring; fused multiply-add is a * b + c. *)
Definition okadd {T} (add : T -> T -> T) : T -> T -> res T := fun x y => Ok (add x y).
Definition okfma {T} (add mul : T -> T -> T) : T -> T -> T -> res T := fun a b c => Ok (add (mul a b) c).

(** ** C26 matrix products.  [holds h a v]: the elements of a are given by v, for any stride
    pattern, including broadcast views. *)
Theorem C26_dot : forall T (zero one : T) add mul, is_csr zero one add mul -> forall (h : heap T) a b va vb n,
  a_shape a = [n] -> a_shape b = [n] -> 0 < n -> holds h a va -> holds h b vb ->
  exists h' r, nd_dot zero (okadd add) (okadd mul) h a b = Ok (h', r) /\
    fresh_result h h' r [] (fun _ => Ok (bigsum add zero (map (fun k => mul (va [k]) (vb [k])) (seq 0 n)))).
Proof.
  intros T zero one add mul CSR h a b va vb n Sa Sb N Ha Hb. unfold nd_dot. rewrite Sa, Sb.
  pose proof (holds_live h a va ltac:(rewrite Sa; auto) Ha) as La. pose proof (holds_live h b vb ltac:(rewrite Sb; auto) Hb) as Lb.
  destruct Ha as [La' Ha], Hb as [Lb' Hb]. rewrite Sa in La', Ha. rewrite Sb in Lb', Hb.
  destruct (a_stride a) as [|s [|? ?]] eqn:Ea; try discriminate. destruct (a_stride b) as [|t [|? ?]] eqn:Eb; try discriminate.
  rewrite Nat.eqb_refl. cbn [guard bind nd_scalar nd_full prod fold_right repeat length Nat.eqb negb from_buffer alloc].
  assert (SRC : forall (c : arr) v u, a_blk c < length h -> a_stride c = [u] -> (forall idx, in_range idx [n] -> get h c idx = Ok (v idx)) ->
    src_ok (h ++ [Some [zero]]) (length h) n (a_ptr c) u (fun k => v [k])).
  { intros c v u L E H. split; [cbn; lia|]. intros k K. specialize (H [k] ltac:(repeat constructor; exact K)). unfold get in H. rewrite E in H. cbn [dot] in H. rewrite Nat.add_0_r in H.
    unfold ld. cbn [padd a_ptr fst snd]. rewrite load_app_old by exact L. exact H. }
  destruct (strided_dot_load zero one add mul CSR (h ++ [Some [zero]]) (length h) 0 (a_ptr a) s (fun k => va [k]) (a_ptr b) t (fun k => vb [k]) n zero N) as (h' & E & L & A1 & A2).
  - now apply SRC.
  - now apply SRC.
  - rewrite load_app_new. reflexivity.
  - unfold okadd. change (a_ptr (fresh_arr (length h) 1 [])) with (length h, 0). rewrite E. cbn [bind]. eexists _, _. split; [reflexivity|].
    apply (fresh_result_written h h' []).
    + cbn. lia.
    + rewrite L, app_length. cbn [length]. lia.
    + intros c o C. rewrite A1 by (intros Q; injection Q; lia). now apply load_app_old.
    + intros idx R. inversion R; subst. cbn [rank]. rewrite A2. now rewrite (csr_add_0 _ _ _ _ CSR).
    + rewrite A1 by (intros Q; injection Q; discriminate). rewrite load_app_new. reflexivity.
Qed.
Print Assumptions C26_dot.

Theorem C26_matvec : forall T (zero one : T) add mul, is_csr zero one add mul -> forall (h : heap T) a b va vb n k,
  a_shape a = [n; k] -> a_shape b = [k] -> 0 < n -> 0 < k -> holds h a va -> holds h b vb ->
  exists h' r, nd_matmul zero one (okadd add) (okadd mul) (okfma add mul) h a b = Ok (h', r) /\
    fresh_result h h' r [n] (fun idx => Ok (bigsum add zero (map (fun t => mul (va [hd 0 idx; t]) (vb [t])) (seq 0 k)))).
Proof.
  intros T zero one add mul CSR h a b va vb n k Sa Sb N K Ha Hb. unfold nd_matmul. rewrite Sa, Sb.
  pose proof (holds_live h a va ltac:(rewrite Sa; auto) Ha) as La. pose proof (holds_live h b vb ltac:(rewrite Sb; auto) Hb) as Lb.
  destruct Ha as [La' Ha], Hb as [Lb' Hb]. rewrite Sa in La', Ha. rewrite Sb in Lb', Hb.
  destruct (a_stride a) as [|rs [|s [|? ?]]] eqn:Ea; try discriminate. destruct (a_stride b) as [|t [|? ?]] eqn:Eb; try discriminate.
  rewrite Nat.eqb_refl. cbn [guard bind alloc].
  destruct (matvec_go_ok zero one add mul CSR (length h) (a_ptr b) s (a_ptr b) t (fun k => vb [k]) k rs n K n (fun i k => va [i; k]) (h ++ [Some (repeat zero n)]) 0 (a_ptr a)) as (h' & E & L & A1 & A2).
  - cbn. lia.
  - intros i j I J. specialize (Ha [i; j] ltac:(repeat constructor; assumption)). unfold get in Ha. rewrite Ea in Ha. cbn [dot] in Ha. rewrite Nat.add_0_r in Ha.
    unfold ld. cbn [padd a_ptr fst snd]. now rewrite load_app_old by exact La.
  - reflexivity.
  - split; [cbn; lia|]. intros j J. specialize (Hb [j] ltac:(repeat constructor; assumption)). unfold get in Hb. rewrite Eb in Hb. cbn [dot] in Hb. rewrite Nat.add_0_r in Hb.
    unfold ld. cbn [padd a_ptr fst snd]. now rewrite load_app_old by exact Lb.
  - reflexivity.
  - intros i I. cbn [plus]. rewrite load_app_new. now rewrite nth_error_repeat by exact I.
  - unfold okadd, okfma. rewrite E. cbn [bind]. eexists _, _. split; [reflexivity|].
    assert (PN : prod [n] = n) by (cbn; lia). rewrite <- PN at 1.
    apply (fresh_result_written h h' [n] (fun idx => bigsum add zero (map (fun t => mul (va [hd 0 idx; t]) (vb [t])) (seq 0 k)))).
    + lia.
    + rewrite L, app_length. cbn [length]. lia.
    + intros c o C. rewrite A1 by lia. now apply load_app_old.
    + intros idx R. destruct idx as [|i [|? ?]]; inversion R as [|? ? ? ? I R']; subst; try now inversion R'. cbn [rank prod fold_right hd].
      rewrite Nat.mul_1_r, Nat.add_0_r. now apply (A2 i).
    + rewrite A1 by (rewrite PN; lia). rewrite load_app_new, PN. now rewrite (proj2 (nth_error_None _ _)) by (rewrite repeat_length; lia).
Qed.
Print Assumptions C26_matvec.

Theorem C26_matmul : forall T (zero one : T) add mul, is_csr zero one add mul -> forall (h : heap T) a b va vb n k m,
  a_shape a = [n; k] -> a_shape b = [k; m] -> 0 < n -> 0 < k -> 0 < m -> holds h a va -> holds h b vb ->
  exists h' r, nd_matmul zero one (okadd add) (okadd mul) (okfma add mul) h a b = Ok (h', r) /\
    fresh_result h h' r [n; m] (fun idx => Ok (bigsum add zero (map (fun t => mul (va [nth 0 idx 0; t]) (vb [t; nth 1 idx 0])) (seq 0 k)))).
Proof.
  intros T zero one add mul CSR h a b va vb n k m Sa Sb N K M Ha Hb. unfold nd_matmul. rewrite Sa, Sb.
  pose proof (holds_live h a va ltac:(rewrite Sa; auto) Ha) as La. pose proof (holds_live h b vb ltac:(rewrite Sb; auto) Hb) as Lb.
  rewrite Nat.eqb_refl. cbn [guard bind]. unfold nd_full. rewrite repeat_length.
  assert (PP : prod [n; m] = n * m) by (cbn; lia). rewrite PP. rewrite (proj2 (Nat.eqb_neq _ _)) by nia. cbn [negb guard bind from_buffer alloc].
  rewrite repeat_length. unfold fresh_arr at 1 2. cbn [a_stride a_ptr a_blk a_off]. rewrite stride_from_shape_rm. cbn [rm_stride prod fold_right]. rewrite Nat.mul_1_r.
  destruct (matrix_matrix_ok zero one add mul CSR (h ++ [Some (repeat zero (n * m))]) (length h) 0 a b va vb n k m Sa Sb N K M) as (h' & E & L & A1 & A2 & A3).
  - apply holds_ext with h; auto; [rewrite Sa; auto|]. intros o. now apply load_app_old.
  - apply holds_ext with h; auto; [rewrite Sb; auto|]. intros o. now apply load_app_old.
  - lia.
  - lia.
  - intros x X. exists zero. cbn [plus]. rewrite load_app_new. now rewrite nth_error_repeat by exact X.
  - unfold okadd, okfma. change (a_ptr {| a_blk := length h; a_off := 0; a_len := n * m; a_cap := n * m; a_shape := [n; m]; a_stride := [m; 1]; a_fl := fresh_flags |}) with (length h, 0).
    rewrite E. cbn [bind]. eexists _, _. split; [reflexivity|]. rewrite <- PP.
    apply (fresh_result_written h h' [n; m] (fun idx => bigsum add zero (map (fun t => mul (va [nth 0 idx 0; t]) (vb [t; nth 1 idx 0])) (seq 0 k)))).
    + rewrite PP. nia.
    + rewrite L, app_length. cbn [length]. lia.
    + intros c o C. rewrite A1 by lia. now apply load_app_old.
    + intros idx R. destruct idx as [|i idx]; [inversion R|]. apply in_range_cons in R as [I R]. destruct idx as [|j idx]; [inversion R|]. apply in_range_cons in R as [J R].
      inversion R; subst. cbn [rank prod fold_right nth]. specialize (A3 i j I J). cbn [plus] in A3. rewrite <- A3. f_equal. lia.
    + rewrite A2 by (rewrite PP; lia). rewrite load_app_new, PP. now rewrite (proj2 (nth_error_None _ _)) by (rewrite repeat_length; lia).
Qed.
Print Assumptions C26_matmul.

Theorem C26_bmm : forall T (zero one : T) add mul, is_csr zero one add mul -> forall (h : heap T) a b va vb q n k m,
  a_shape a = [q; n; k] -> a_shape b = [q; k; m] -> 0 < q -> 0 < n -> 0 < k -> 0 < m -> holds h a va -> holds h b vb ->
  exists h' r, nd_bmm zero one (okadd add) (okadd mul) (okfma add mul) h a b = Ok (h', r) /\
    fresh_result h h' r [q; n; m] (fun idx => Ok (bigsum add zero
      (map (fun t => mul (va [nth 0 idx 0; nth 1 idx 0; t]) (vb [nth 0 idx 0; t; nth 2 idx 0])) (seq 0 k)))).
Proof.
  intros T zero one add mul CSR h a b va vb q n k m Sa Sb Q N K M Ha Hb. unfold nd_bmm. rewrite Sa, Sb.
  pose proof (holds_live h a va ltac:(rewrite Sa; auto) Ha) as La. pose proof (holds_live h b vb ltac:(rewrite Sb; auto) Hb) as Lb.
  rewrite Nat.eqb_refl. cbn [guard bind]. unfold nd_full. rewrite repeat_length.
  assert (PP : prod [q; n; m] = q * (n * m)) by (cbn; lia). rewrite PP. rewrite (proj2 (Nat.eqb_neq _ _)) by nia. cbn [negb guard bind from_buffer alloc].
  rewrite repeat_length. set (r := fresh_arr (length h) (q * (n * m)) [q; n; m]).
  assert (ER : a_stride r = [n * m; m; 1]). { unfold r. cbn [fresh_arr a_stride]. rewrite stride_from_shape_rm. cbn [rm_stride prod fold_right]. now rewrite Nat.mul_1_r. }
  rewrite ER.
  assert (SL : forall (c : arr) v x y z, a_shape c = [x; y; z] -> 0 < x -> 0 < y -> 0 < z -> holds h c v ->
     exists s0 s1 s2 l f, a_stride c = [s0; s1; s2] /\ nd_slice_along c 0 (IUsize 0) = Ok (mkArr (a_blk c) (a_off c) l l [y; z] [s1; s2] f)).
  { intros c v x y z Sc X Y Z0 [Lc _]. rewrite Sc in Lc. destruct (a_stride c) as [|s0 [|s1 [|s2 [|? ?]]]] eqn:Ec; try discriminate.
    unfold nd_slice_along. rewrite Sc, Ec. change (as_absolute 0 (length [x; y; z])) with (Ok 0).
    cbn [bind vget nth_error index_collapses vremove index_first].
    destruct (strided_len_ok [y; z] [s1; s2] eq_refl) as (l & El & _).
    { intros u [<-|[<-|[]]]; assumption. }
    exists s0, s1, s2, l. eexists. split; [reflexivity|]. rewrite El. cbn [bind]. rewrite Nat.mul_0_r, Nat.add_0_r. reflexivity. }
  destruct (SL a va q n k Sa Q N K Ha) as (a0 & a1 & a2 & la & fa & Ea & ->).
  destruct (SL b vb q k m Sb Q K M Hb) as (b0 & b1 & b2 & lb & fb & Eb & ->). clear SL. cbn [bind]. rewrite Ea, Eb. cbn [vget nth_error bind tl].
  destruct (bmm_go_ok zero one add mul CSR (length h) a0 b0 n k m N K M q (h ++ [Some (repeat zero (q * (n * m)))]) 0
     (mkArr (a_blk a) (a_off a) la la [n; k] [a1; a2] fa) (mkArr (a_blk b) (a_off b) lb lb [k; m] [b1; b2] fb) (fun t idx => va (t :: idx)) (fun t idx => vb (t :: idx)))
    as (h' & E & L & A1 & A2 & A3).
  - reflexivity.
  - reflexivity.
  - cbn. lia.
  - cbn. lia.
  - intros t X. split; [reflexivity|]. cbn [shift_arr a_shape]. intros idx R. destruct Ha as [_ Ha]. rewrite Sa in Ha. specialize (Ha (t :: idx) ltac:(constructor; assumption)).
    unfold get in *. rewrite Ea in Ha. cbn [dot] in Ha. cbn [shift_arr a_blk a_off a_stride]. rewrite load_app_old by exact La. rewrite <- Ha. f_equal. lia.
  - intros t X. split; [reflexivity|]. cbn [shift_arr a_shape]. intros idx R. destruct Hb as [_ Hb]. rewrite Sb in Hb. specialize (Hb (t :: idx) ltac:(constructor; assumption)).
    unfold get in *. rewrite Eb in Hb. cbn [dot] in Hb. cbn [shift_arr a_blk a_off a_stride]. rewrite load_app_old by exact Lb. rewrite <- Hb. f_equal. lia.
  - intros x X. exists zero. cbn [plus]. rewrite load_app_new. now rewrite nth_error_repeat by exact X.
  - unfold okadd, okfma. change (a_ptr r) with (length h, 0). rewrite E. cbn [bind]. eexists _, _. split; [reflexivity|]. unfold r. rewrite <- PP.
    apply (fresh_result_written h h' [q; n; m] (fun idx => bigsum add zero
      (map (fun t => mul (va [nth 0 idx 0; nth 1 idx 0; t]) (vb [nth 0 idx 0; t; nth 2 idx 0])) (seq 0 k)))).
    + rewrite PP. nia.
    + rewrite L, app_length. cbn [length]. lia.
    + intros c o C. rewrite A1 by lia. now apply load_app_old.
    + intros idx R. destruct idx as [|t idx]; [inversion R|]. apply in_range_cons in R as [TT R].
      destruct idx as [|i idx]; [inversion R|]. apply in_range_cons in R as [I R]. destruct idx as [|j idx]; [inversion R|]. apply in_range_cons in R as [J R].
      inversion R; subst. cbn [rank prod fold_right nth]. specialize (A3 t i j TT I J). cbn [plus] in A3. rewrite <- A3. f_equal. lia.
    + rewrite A2 by (rewrite PP; lia). rewrite load_app_new, PP. now rewrite (proj2 (nth_error_None _ _)) by (rewrite repeat_length; lia).
Qed.
Print Assumptions C26_bmm.

Theorem C26_mismatch_panics : forall T (zero one : T) add mul fma (h : heap T) a b,
  (length (a_shape a) <> 1 \/ length (a_shape b) <> 1 \/ a_shape a <> a_shape b -> nd_dot zero add mul h a b = Panic) /\
  (match a_shape a, a_shape b with [n], [m] => n <> m | [_; k], [m] => k <> m | [_; k], [k'; _] => k <> k' | _, _ => True end ->
     nd_matmul zero one add mul fma h a b = Panic) /\
  (match a_shape a, a_shape b with [q; _; _], [q'; _; _] => q <> q' | _, _ => True end -> nd_bmm zero one add mul fma h a b = Panic).
Proof.
  intros T zero one add mul fma h a b.
  assert (DOT : length (a_shape a) <> 1 \/ length (a_shape b) <> 1 \/ a_shape a <> a_shape b -> nd_dot zero add mul h a b = Panic).
  { unfold nd_dot. intros H. destruct (a_shape a) as [|n [|? ?]]; auto. destruct (a_shape b) as [|m [|? ?]]; auto.
    destruct (a_stride a) as [|? [|? ?]]; auto. destruct (a_stride b) as [|? [|? ?]]; auto.
    destruct (Nat.eqb_spec n m) as [->|N]; [|reflexivity]. cbn [length] in H. destruct H as [H|[H|H]]; congruence. }
  split; [exact DOT|]. split.
  - intros H. unfold nd_matmul. destruct (a_shape a) as [|n [|k [|? ?]]] eqn:Ea; auto; destruct (a_shape b) as [|m [|k' [|? ?]]] eqn:Eb; auto.
    + apply DOT. right. right. congruence.
    + now rewrite (proj2 (Nat.eqb_neq _ _) H).
    + now rewrite (proj2 (Nat.eqb_neq _ _) H).
  - intros H. unfold nd_bmm. destruct (a_shape a) as [|q [|? [|? [|? ?]]]]; auto. destruct (a_shape b) as [|q' [|? [|? [|? ?]]]]; auto.
    now rewrite (proj2 (Nat.eqb_neq _ _) H).
Qed.
Print Assumptions C26_mismatch_panics.

(** ** C30 trace: the sum of the diagonal, in order *)
Lemma drop_axes_last sh n : drop_axes [length sh] (sh ++ [n]) = sh.
Proof.
  unfold drop_axes. rewrite app_length. cbn [length]. rewrite seq_app. cbn [seq plus].
  assert (E : forall s l (x : nat), filter (fun p => negb (existsb (Nat.eqb (fst p)) [s + length l])) (combine (seq s (length l) ++ [s + length l]) (l ++ [x])) = combine (seq s (length l)) l).
  { intros s l x. revert s. induction l as [|y l IH]; intros s; cbn [length seq app combine filter existsb fst].
    - rewrite Nat.add_0_r, Nat.eqb_refl. reflexivity.
    - rewrite <- Nat.add_succ_comm. rewrite (proj2 (Nat.eqb_neq _ _)) by lia. cbn [orb negb]. f_equal. apply IH. }
  specialize (E 0 sh n). cbn [plus] in E. rewrite E. clear E. generalize 0. induction sh as [|x sh IH]; intros s; cbn [length seq combine map snd]; [reflexivity|]. rewrite IH; reflexivity.
Qed.

Lemma fibre_last sh n o : in_range o sh -> fibre [length sh] (sh ++ [n]) o = map (fun d => o ++ [d]) (seq 0 n).
Proof.
  intros R. unfold fibre. rewrite indices_app, filter_flat_map.
  assert (F : forall i, In i (indices sh) -> filter (fun idx => if list_eq_dec Nat.eq_dec (drop_axes [length sh] idx) o then true else false) (map (app i) (indices [n])) =
     if list_eq_dec Nat.eq_dec i o then map (fun d => o ++ [d]) (seq 0 n) else []).
  { intros i I. apply in_indices in I. rewrite indices_one, map_map, filter_map.
    rewrite (filter_ext _ (fun _ => if list_eq_dec Nat.eq_dec i o then true else false)).
    - destruct (list_eq_dec Nat.eq_dec i o) as [->|N]; [|now rewrite filter_false]. f_equal. generalize (seq 0 n). induction l; cbn [filter]; congruence.
    - intros d. rewrite <- (in_range_length _ _ I), drop_axes_last. reflexivity. }
  pose proof (NoDup_indices sh) as ND. assert (I : In o (indices sh)) by now apply in_indices.
  revert F ND I. generalize (indices sh). induction l as [|i l IH]; intros F ND I; [destruct I|]. cbn [flat_map]. rewrite F by now left.
  apply NoDup_cons_iff in ND as [NI ND]. destruct (list_eq_dec Nat.eq_dec i o) as [->|N].
  - assert (Z : forall l', (forall i, In i l' -> In i l) -> flat_map (fun x => filter (fun idx => if list_eq_dec Nat.eq_dec (drop_axes [length sh] idx) o then true else false) (map (app x) (indices [n]))) l' = []).
    { induction l' as [|j l' IH']; intros S; [reflexivity|]. cbn [flat_map]. rewrite F by (right; apply S; now left).
      destruct (list_eq_dec Nat.eq_dec j o) as [->|N]; [exfalso; apply NI, S; now left|]. cbn [app]. apply IH'. intros; apply S; now right. }
    rewrite Z by auto. apply app_nil_r.
  - cbn [app]. apply IH; auto; [intros; apply F; now right|]. destruct I; congruence.
Qed.

Theorem C30_trace : forall T (zero : T) (add : T -> T -> res T) (h : heap T) b n bc a off k1 k2,
  live h b n -> chain b n bc a -> length (a_shape a) <= MAX_DIMS -> 0 < prod (a_shape a) ->
  let nd := length (a_shape a) in
  (- Z.of_nat nd <= k1 < Z.of_nat nd)%Z -> (- Z.of_nat nd <= k2 < Z.of_nat nd)%Z ->
  let i := Z.to_nat (k1 mod Z.of_nat nd) in let j := Z.to_nat (k2 mod Z.of_nat nd) in
  i <> j ->
  let d1 := nth i (a_shape a) 0%nat in let d2 := nth j (a_shape a) 0%nat in
  (- Z.of_nat d1 < off < Z.of_nat d2)%Z ->
  let len := Nat.min (d1 - Z.to_nat (- off)) (d2 - Z.to_nat off) in
  let val rest := vs <- mapM (fun d => get h a (diag_index nd i j off (rest ++ [d]))) (seq 0 len) ;;
                  foldM (fun x acc => add acc x) vs zero in
  ((forall rest, in_range rest (drop_two 0 i j (a_shape a)) -> exists v, val rest = Ok v) ->
    exists h' r, nd_trace zero add h a off k1 k2 = Ok (h', r) /\ fresh_result h h' r (drop_two 0 i j (a_shape a)) val) /\
  ((exists rest, in_range rest (drop_two 0 i j (a_shape a)) /\ val rest = Panic) -> (forall x y, add x y <> Oob) ->
    nd_trace zero add h a off k1 k2 = Panic).
Proof.
  intros T zero add h b n bc a off k1 k2 LV C MD P nd H1 H2 i j NE d1 d2 O len val.
  destruct (C30_diagonal b n bc a off k1 k2 C H1 H2 NE O) as (r & E & SH & V). fold nd in SH, V. fold i j in SH, V. fold d1 d2 in SH. fold len in SH.
  pose proof (Ch_diagonal _ _ _ _ _ _ _ _ C E) as CR. pose proof (chain_valid h _ _ _ _ LV CR) as VR. pose proof (chain_valid h _ _ _ _ LV C) as VA.
  set (dsh := drop_two 0 i j (a_shape a)) in *.
  assert (LD : length dsh + 1 <= nd).
  { unfold nd. assert (I : i < length (a_shape a)) by (unfold i; pose proof (Z.mod_pos_bound k1 (Z.of_nat nd)); fold nd; lia). unfold dsh. clear - I NE.
    assert (L : forall l s, length (drop_two s i j l) <= length l).
    { induction l as [|x l IH]; intros s; cbn [drop_two length]; [lia|]. specialize (IH (S s)). destruct (_ || _); cbn [length]; lia. }
    enough (G : forall l s, s <= i < s + length l -> length (drop_two s i j l) + 1 <= length l) by (apply G; lia).
    induction l as [|x l IH]; intros s B; cbn [drop_two length] in *; [lia|]. destruct (Nat.eqb_spec s i) as [->|N].
    - cbn [orb]. specialize (L l (S i)). lia.
    - cbn [orb]. specialize (IH (S s) ltac:(lia)). destruct (s =? j); cbn [length]; lia. }
  assert (LR : length (a_shape r) = length dsh + 1) by (rewrite SH, app_length; reflexivity).
  assert (AX : axes_of (length (a_shape r)) [(-1)%Z] = [length dsh]).
  { unfold axes_of. cbn [map]. f_equal. rewrite LR. replace (-1)%Z with (Z.of_nat (length dsh) + (-1) * Z.of_nat (length dsh + 1))%Z by lia.
    rewrite Z.mod_add by lia. rewrite Z.mod_small by lia. apply Nat2Z.id. }
  assert (LP : 0 < len).
  { assert (NZ : nz (a_shape a)) by (apply pos_nz, pos_prod, P).
    assert (D1 : d1 <> 0). { apply nz_nth; [exact NZ|]. unfold i. pose proof (Z.mod_pos_bound k1 (Z.of_nat nd)). fold nd. lia. }
    assert (D2 : d2 <> 0). { apply nz_nth; [exact NZ|]. unfold j. pose proof (Z.mod_pos_bound k2 (Z.of_nat nd)). fold nd. lia. }
    unfold len. clear - O D1 D2. lia. }
  assert (PD : 0 < prod dsh). { apply pos_prod, pos_nz. unfold dsh. apply nz_drop, pos_nz, pos_prod, P. }
  assert (PR : 0 < prod (a_shape r)). { rewrite SH. apply pos_prod. apply Forall_app. split; [now apply pos_prod|]. constructor; auto. }
  assert (DA : drop_axes [length dsh] (a_shape r) = dsh) by (rewrite SH; apply drop_axes_last).
  destruct (C20_reduce_along T (fun x acc => add acc x) h r zero [(-1)%Z] VR ltac:(rewrite LR; fold nd in MD; lia) PR) as [R1 R2].
  { constructor; [|constructor]. rewrite LR. lia. }
  { rewrite AX. constructor; [intros []|constructor]. }
  rewrite AX, DA in R1, R2.
  assert (EV : forall rest, in_range rest dsh -> (vs <- mapM (get h r) (fibre [length dsh] (a_shape r) rest) ;; foldM (fun x acc => add acc x) vs zero) = val rest).
  { intros rest RR. unfold val. f_equal. rewrite SH, fibre_last by exact RR. rewrite mapM_map. apply mapM_ext. intros d D. apply in_seq in D.
    destruct V as (VB & _ & VI). destruct (VI (rest ++ [d])) as [_ EO].
    { rewrite SH. apply Forall2_app; [exact RR|]. constructor; [lia|constructor]. }
    unfold get. now rewrite VB, EO. }
  unfold nd_trace. rewrite E. cbn [bind]. split.
  - intros H. destruct R1 as (h' & r' & ER & F1 & F2 & F3 & F4 & F5 & F6 & F7).
    { intros o Ro. rewrite EV by exact Ro. auto. }
    exists h', r'. split; [exact ER|]. split; [exact F1|]. split; [exact F2|]. split; [exact F3|]. split; [exact F4|]. split; [exact F5|]. split; [exact F6|].
    intros idx RI. rewrite F7 by exact RI. now apply EV.
  - intros (rest & RR & PQ) NO. apply R2; [|auto]. exists rest. split; [exact RR|]. now rewrite EV.
Qed.
Print Assumptions C30_trace.
Theorem C30_trace_panics : forall T (zero : T) (add : T -> T -> res T) (h : heap T) a off k1 k2,
  nd_offset_diagonal_along a off k1 k2 = Panic -> nd_trace zero add h a off k1 k2 = Panic.
Proof. intros T zero add h a off k1 k2 E. unfold nd_trace. now rewrite E. Qed.
Print Assumptions C30_trace_panics.
Example C30_trace_ex : exists h' r, nd_trace 0 (fun x y => Ok (x + y)) exh ex23 1 0 (-1) = Ok (h', r) /\ elems h' r = Ok [26].
Proof. eexists _, _. split; vm_compute; reflexivity. Qed.

(** ** C29 loop order.  The strides of the nest are given axis by axis: rows[d][k] is the
    stride of operand k on axis d. *)
Theorem C29_order_is_permutation : forall n strides, n <= MAX_DIMS -> n <= length strides ->
  exists o, find_best_axis_ordering n strides = Ok o /\ match o with None => True | Some ord => Permutation (seq 0 n) ord end.
Proof. exact find_best_axis_ordering_ok. Qed.
Print Assumptions C29_order_is_permutation.

(** addresses of all operands at a multi-index *)
Definition addresses (nops : nat) (rows : list (list nat)) (idx : list nat) : list nat :=
  map (fun k => dot idx (map (fun r => nth k r 0) rows)) (seq 0 nops).

Lemma dot_map_perm {A} (e f : A -> nat) L L' : Permutation L L' -> dot (map e L) (map f L) = dot (map e L') (map f L').
Proof. induction 1; cbn [map dot]; try reflexivity; lia. Qed.

(** without reordering: every multi-index, in row-major order, at its own addresses *)
Theorem C29_generator_visits_all : forall nops sh rows,
  length rows = length sh -> Forall (fun r => length r = nops) rows -> nops <= MAX_ARGS -> length sh <= MAX_DIMS ->
  mfig_list nops sh rows = Ok (map (addresses nops rows) (indices sh)).
Proof. intros. now apply mfig_list_ok. Qed.
Print Assumptions C29_generator_visits_all.

(** with the chosen order applied to shape and strides: the same addresses, each once *)
Theorem C29_reordered_visits_same : forall nops sh rows ord,
  length rows = length sh -> Forall (fun r => length r = nops) rows -> nops <= MAX_ARGS -> length sh <= MAX_DIMS ->
  find_best_axis_ordering (length sh) rows = Ok (Some ord) ->
  exists sh' rows' l, permute_array sh ord = Ok sh' /\ permute_array rows ord = Ok rows' /\
    mfig_list nops sh' rows' = Ok l /\ Permutation (map (addresses nops rows) (indices sh)) l.
Proof.
  intros nops sh rows ord LR FR LO LM EO.
  assert (P : Permutation (seq 0 (length sh)) ord).
  { destruct (find_best_axis_ordering_ok (length sh) rows) as (o & E & H); [lia|lia|]. rewrite EO in E. now injection E as <-. }
  assert (LP : length ord = length sh) by (apply Permutation_length in P; now rewrite seq_length in P).
  assert (FB : Forall (fun j => j < length sh) ord).
  { apply Forall_forall. intros j J. apply Permutation_sym in P. apply (Permutation_in _ P) in J. apply in_seq in J. lia. }
  exists (map (fun j => nth j sh 0) ord), (map (fun j => nth j rows []) ord).
  exists (map (addresses nops (map (fun j => nth j rows []) ord)) (indices (map (fun j => nth j sh 0) ord))).
  split; [now apply permute_array_ok|]. split; [apply permute_array_ok; [congruence|now rewrite LR]|].
  split.
  { apply mfig_list_ok; rewrite ?map_length; auto; [|lia]. apply Forall_forall. intros r R. apply in_map_iff in R as (j & <- & J).
    apply (proj1 (Forall_forall _ _) FR). apply nth_In. rewrite LR. now apply (proj1 (Forall_forall _ _) FB). }
  set (L := map Z.of_nat (seq 0 (length sh))). set (L' := map Z.of_nat ord).
  assert (PL : Permutation L L') by (now apply Permutation_map).
  assert (NL : NoDup L). { apply FinFun.Injective_map_NoDup; [intros x y; lia|apply seq_NoDup]. }
  set (d := fun l => nth (Z.to_nat l) sh 0). set (rw := fun l => nth (Z.to_nat l) rows []).
  assert (SL : map d L = sh). { unfold L, d. rewrite map_map. rewrite (map_ext _ (fun i => nth i sh 0)) by (intros; now rewrite Nat2Z.id). symmetry. now apply row_map. }
  assert (SL' : map d L' = map (fun j => nth j sh 0) ord). { unfold L', d. rewrite map_map. apply map_ext. intros. now rewrite Nat2Z.id. }
  assert (RL : map rw L = rows).
  { unfold L, rw. rewrite map_map. rewrite (map_ext _ (fun i => nth i rows [])) by (intros; now rewrite Nat2Z.id). rewrite <- LR. clear.
    induction rows as [|r rows IH]; [reflexivity|]. cbn [length seq map nth]. rewrite <- seq_shift, map_map. f_equal. exact IH. }
  assert (RL' : map rw L' = map (fun j => nth j rows []) ord). { unfold L', rw. rewrite map_map. apply map_ext. intros. now rewrite Nat2Z.id. }
  pose (G := fun e : Z -> nat => map (fun k => dot (map e L) (map (fun l => nth k (rw l) 0) L)) (seq 0 nops)).
  rewrite <- SL', <- RL'. rewrite <- SL at 1. rewrite <- RL at 1.
  rewrite (map_ext_in _ (fun idx => G (lookup L idx))), (map_ext_in (addresses nops (map rw L')) (fun idx => G (lookup L' idx))).
  - apply env_perm; auto. intros e1 e2 E. unfold G. apply map_ext. intros k. f_equal. now apply map_ext_in.
  - intros idx I. apply in_indices, in_range_length in I. rewrite map_length in I. unfold addresses, G. apply map_ext. intros k. rewrite map_map.
    rewrite (dot_map_perm _ _ L L' PL). rewrite map_lookup; [reflexivity|now apply (Permutation_NoDup PL)|exact I].
  - intros idx I. apply in_indices, in_range_length in I. rewrite map_length in I. unfold addresses, G. apply map_ext. intros k. rewrite map_map.
    rewrite map_lookup; [reflexivity|exact NL|exact I].
Qed.
Print Assumptions C29_reordered_visits_same.
Example C29_ex : find_best_axis_ordering 2 [[3; 2]; [1; 1]] = Ok (Some [1; 0]) /\
  permute_array [2; 3] [1; 0] = Ok [3; 2] /\
  mfig_list 2 [3; 2] [[1; 1]; [3; 2]] = Ok [[0; 0]; [3; 2]; [1; 1]; [4; 3]; [2; 2]; [5; 4]].
Proof. repeat split; vm_compute; reflexivity. Qed.

(** ** C27 Einstein summation *)

(** Operand k has the letters subs[k], shape (dm of its letters) and elements vals[k]; out are
    the output letters and sm the remaining ones.  Missing from the full property: requests
    without any label (refuted below); more than 15 operands (the code panics, below); more than
    32 axes in one operand or 32 distinct labels. *)
Theorem C27_einsum_partial : forall T (zero one : T) add mul, is_csr zero one add mul ->
  forall (h : heap T) ops subs vals out sm dm,
  Forall (Forall letter) subs -> Forall letter out ->
  NoDup (out ++ sm) -> (forall l, In l (out ++ sm) <-> exists s, In s subs /\ In l s) ->
  out ++ sm <> [] -> length (out ++ sm) <= 32 -> length ops <= 15 ->
  Forall2 (fun s a => a_shape a = map dm s /\ length s <= 32) subs ops ->
  Forall2 (holds h) ops vals -> (forall l, In l (out ++ sm) -> 0 < dm l) ->
  exists h' r, nd_einsum zero one (okadd add) (okadd mul) (okfma add mul) h ops subs out = Ok (h', r) /\
    fresh_result h h' r (map dm out) (fun oidx => Ok (einsum_value zero one add mul dm subs vals out sm oidx)).
Proof.
  intros T zero one add mul CSR h ops subs vals out sm dm LS LO ND COV NE LM LA FS FH PD.
  apply (nd_einsum_ok zero one add mul CSR dm subs vals out sm); auto.
  - revert LO. apply Forall_impl. intros c. apply letter_alpha.
  - assert (PS : forall s, In s subs -> forall l, In l s -> 0 < dm l). { intros s I l J. apply PD, COV. eauto. }
    clear - LS FS FH PS. revert vals FH. induction FS as [|s a subs ops [SH L] FS IH]; intros vals FH; inversion FH as [|? v ? vals' Hv FH']; subst; constructor.
    + apply Forall_cons_iff in LS as [L0 _]. split; [revert L0; apply Forall_impl; intros c; apply letter_alpha|]. split; [exact SH|].
      split; [|exact L]. destruct Hv as [Hv _]. now rewrite Hv, SH, map_length.
    + exact Hv.
    + assert (PA : Forall (fun n => 0 < n) (a_shape a)). { rewrite SH. apply Forall_map, Forall_forall. apply PS. now left. }
      pose proof (holds_live h a v PA Hv). lia.
    + rewrite SH. apply Forall_map, Forall_forall. apply PS. now left.
    + apply Forall_cons_iff in LS as [_ LS]. apply IH; auto. intros s' I. apply PS. now right.
  - unfold MAX_ARGS. lia.
Qed.
Print Assumptions C27_einsum_partial.

Theorem C27_too_many_operands_panic : forall T (zero one : T) add mul fma (h : heap T) ops subs out,
  15 < length ops -> nd_einsum zero one add mul fma h ops subs out = Panic.
Proof.
  intros T zero one add mul fma h ops subs out L. unfold nd_einsum, prepare_einsum.
  rewrite (proj2 (Nat.ltb_ge _ _)) by (unfold MAX_ARGS; lia). reflexivity.
Qed.
Print Assumptions C27_too_many_operands_panic.

(** the sum over no label of a scalar is that scalar, but the code panics *)
Theorem C27_scalar_refuted : exists (h : heap nat) a, chain 0 1 false a /\ live h 0 1 /\ a_shape a = [] /\ get h a [] = Ok 7 /\
  nd_einsum 0 1 (okadd Nat.add) (okadd Nat.mul) (okfma Nat.add Nat.mul) h [a] [[]] [] = Panic.
Proof.
  exists [Some [7]], (fresh_arr 0 1 []). split; [now apply Ch_new; cbn; lia|]. split; [eexists; split; reflexivity|].
  split; [reflexivity|]. split; vm_compute; reflexivity.
Qed.
Print Assumptions C27_scalar_refuted.

(** natural numbers, and integers modulo any m > 0 (in particular wrapping integers) *)
Lemma nat_csr : is_csr 0 1 Nat.add Nat.mul.
Proof. split; intros; lia. Qed.
Section Wrapping.
  Variable m : Z.
  Hypothesis M : (0 < m)%Z.
  Definition wint : Type := {z : Z | (0 <=? z)%Z && (z <? m)%Z = true}.
  Lemma wrap_range z : (0 <=? z mod m)%Z && (z mod m <? m)%Z = true.
  Proof. pose proof (Z.mod_pos_bound z m M). apply andb_true_iff. rewrite Z.leb_le, Z.ltb_lt. lia. Qed.
  Definition wrap (z : Z) : wint := exist _ (z mod m)%Z (wrap_range z).
  Definition wadd (x y : wint) : wint := wrap (proj1_sig x + proj1_sig y).
  Definition wmul (x y : wint) : wint := wrap (proj1_sig x * proj1_sig y).
  Lemma wint_eq (x y : wint) : proj1_sig x = proj1_sig y -> x = y.
  Proof. destruct x as [x X], y as [y Y]. cbn [proj1_sig]. intros ->. f_equal. apply Eqdep_dec.UIP_dec, Bool.bool_dec. Qed.
  Lemma wint_mod (x : wint) : (proj1_sig x mod m)%Z = proj1_sig x.
  Proof. destruct x as [x X]. cbn [proj1_sig]. apply andb_true_iff in X as [X1 X2]. apply Z.leb_le in X1. apply Z.ltb_lt in X2. now apply Z.mod_small. Qed.
  Lemma wrapping_csr : is_csr (wrap 0) (wrap 1) wadd wmul.
  Proof.
    split; intros; apply wint_eq; unfold wadd, wmul, wrap; cbn [proj1_sig].
    - f_equal. lia.
    - rewrite Zplus_mod_idemp_l, Zplus_mod_idemp_r. f_equal. lia.
    - rewrite Z.mod_0_l by lia. apply wint_mod.
    - f_equal. lia.
    - rewrite Zmult_mod_idemp_l, Zmult_mod_idemp_r. f_equal. lia.
    - rewrite Zmult_mod_idemp_l, Z.mul_1_l. apply wint_mod.
    - rewrite (Z.mod_0_l m) by lia. rewrite Z.mul_0_l. apply Z.mod_0_l. lia.
    - rewrite Zmult_mod_idemp_r. rewrite <- Zplus_mod. f_equal. lia.
  Qed.
End Wrapping.
Theorem C26_wrapping_integers : forall m (M : (0 < m)%Z), is_csr (wrap m M 0) (wrap m M 1) (wadd m M) (wmul m M).
Proof. exact wrapping_csr. Qed.
Print Assumptions C26_wrapping_integers.
(** diagonal times vector: "ii,i->i" and a contraction of three operands "ij,jk,k->i" *)
Example C27_ex : let op := okadd Nat.add in let mu := okadd Nat.mul in let fm := okfma Nat.add Nat.mul in
  let h := [Some [1; 2; 3; 4]; Some [10; 20]] in let a := fresh_arr 0 4 [2; 2] in let b := fresh_arr 1 2 [2] in
  (exists h' r, nd_einsum 0 1 op mu fm h [a; b] [[105; 105]; [105]]%Z [105]%Z = Ok (h', r) /\ elems h' r = Ok [10; 80]) /\
  (exists h' r, nd_einsum 0 1 op mu fm h [a; a; b] [[105; 106]; [106; 107]; [107]]%Z [105]%Z = Ok (h', r) /\ elems h' r = Ok [270; 590]) /\
  (exists h' r, nd_einsum 0 1 op mu fm h [a] [[105; 106]]%Z []%Z = Ok (h', r) /\ elems h' r = Ok [10]).
Proof. repeat split; eexists _, _; split; vm_compute; reflexivity. Qed.
Example C26_ex : let op := okadd Nat.add in let mu := okadd Nat.mul in let fm := okfma Nat.add Nat.mul in
  let h := [Some [1; 2; 3; 4; 5; 6]; Some [10; 20; 30]] in
  let a := fresh_arr 0 6 [2; 3] in let at_ := mkArr 0 0 6 6 [3; 2] [1; 3] (mkFlags false true true true true false) in let b := fresh_arr 1 3 [3] in
  let a3 := fresh_arr 0 6 [2; 1; 3] in let c3 := fresh_arr 0 6 [2; 3; 1] in
  (exists h' r, nd_dot 0 op mu h b b = Ok (h', r) /\ elems h' r = Ok [1400]) /\
  (exists h' r, nd_matmul 0 1 op mu fm h a b = Ok (h', r) /\ elems h' r = Ok [140; 320]) /\
  (exists h' r, nd_matmul 0 1 op mu fm h a at_ = Ok (h', r) /\ a_shape r = [2; 2] /\ elems h' r = Ok [14; 32; 32; 77]) /\
  (exists h' r, nd_bmm 0 1 op mu fm h a3 c3 = Ok (h', r) /\ a_shape r = [2; 1; 1] /\ elems h' r = Ok [14; 77]) /\
  nd_matmul 0 1 op mu fm h a a = Panic /\ nd_bmm 0 1 op mu fm h a3 a3 = Panic.
Proof. repeat split; try (eexists _, _; repeat split; vm_compute; reflexivity); vm_compute; reflexivity. Qed.

(** ** C28 ill-formed requests.  Subscripts are byte strings; 46 is '.'.  Missing: the number of
    subscripts, and subscripts with an ellipsis (both refuted below). *)
Theorem C28_ill_formed_panics_partial : forall T (zero one : T) add mul fma (h : heap T) ops subs out,
  Forall (fun s => ~ In 46%Z s) subs -> ~ In 46%Z out ->
  (exists k s a, nth_error subs k = Some s /\ nth_error ops k = Some a /\
     Forall letter s /\ length s <> length (a_shape a)) \/
  (exists l k1 s1 a1 j1 k2 s2 a2 j2, letter l /\
     nth_error subs k1 = Some s1 /\ nth_error ops k1 = Some a1 /\ nth_error s1 j1 = Some l /\
     nth_error subs k2 = Some s2 /\ nth_error ops k2 = Some a2 /\ nth_error s2 j2 = Some l /\
     nth_error (a_shape a1) j1 <> nth_error (a_shape a2) j2) \/
  (exists l, letter l /\ In l out /\ forall s, In s subs -> ~ In l s) \/
  (exists l j1 j2, letter l /\ j1 <> j2 /\ nth_error out j1 = Some l /\ nth_error out j2 = Some l) \/
  (exists c, In c out /\ ~ letter c /\ c <> 32%Z) ->
  nd_einsum zero one add mul fma h ops subs out = Panic.
Proof.
  intros T zero one add mul fma h ops subs out NS NO BAD. unfold nd_einsum.
  destruct (prepare_einsum ops subs out) as [r| |] eqn:E; [exfalso|reflexivity|exfalso; now apply (prepare_no_oob ops subs out)].
  apply prepare_inv in E as (_ & (dm & HS) & HO & HD & HC); [|exact NS|exact NO].
  destruct BAD as [(k & s & a & E1 & E2 & AL & N)|[(l & k1 & s1 & a1 & j1 & k2 & s2 & a2 & j2 & A & E1 & E2 & E3 & E4 & E5 & E6 & N)|[(l & A & I & N)|[(l & j1 & j2 & A & N & E1 & E2)|(c & I & A & N)]]]].
  - apply N. destruct (HS k s a E1 E2) as [L _]. rewrite <- L. f_equal. symmetry. clear - AL. induction AL as [|c s A F IH]; [reflexivity|]. cbn [filter].
    apply letter_alpha in A. now rewrite A, IH.
  - apply letter_alpha in A. destruct (HS _ _ _ E1 E2) as [_ H1]. destruct (HS _ _ _ E4 E5) as [_ H2]. apply N. now rewrite (H1 _ _ E3 A), (H2 _ _ E6 A).
  - apply letter_alpha in A. destruct (HO l I A) as (s & I1 & I2). exact (N s I1 I2).
  - apply letter_alpha in A. assert (H : is_alpha l = false); [|congruence].
    destruct (Nat.lt_total j1 j2) as [L|[L|L]]; [exact (HD j1 j2 l L E1 E2)|contradiction|exact (HD j2 j1 l L E2 E1)].
  - destruct (HC c I) as [H|H]; [|contradiction]. apply A. now apply letter_alpha.
Qed.
Print Assumptions C28_ill_formed_panics_partial.
Example C28_ex : let h := [Some [1; 2; 3; 4; 5; 6]] in let a := fresh_arr 0 6 [2; 3] in
  let e := fun subs out => nd_einsum 0 1 (okadd Nat.add) (okadd Nat.mul) (okfma Nat.add Nat.mul) h [a; a] subs out in
  e [[105; 106]; [106; 105]]%Z [105]%Z = Panic /\ e [[105; 106]; [105]]%Z [105]%Z = Panic /\
  e [[105; 106]; [105; 106]]%Z [107]%Z = Panic /\ e [[105; 106]; [105; 106]]%Z [105; 105]%Z = Panic /\
  exists h' r, e [[105; 106]; [105; 106]]%Z [105]%Z = Ok (h', r) /\ elems h' r = Ok [14; 77].
Proof. repeat split; try (eexists _, _; repeat split; vm_compute; reflexivity); vm_compute; reflexivity. Qed.

(** more subscripts than operands: the extra one is ignored *)
Theorem C28_extra_subscript_refuted : exists (h : heap nat) a, chain 0 6 false a /\ live h 0 6 /\
  exists h' r, nd_einsum 0 1 (okadd Nat.add) (okadd Nat.mul) (okfma Nat.add Nat.mul) h [a] [[105; 106]; [107]]%Z [105]%Z = Ok (h', r) /\
    elems h' r = Ok [6; 15].
Proof.
  exists [Some [1; 2; 3; 4; 5; 6]], (fresh_arr 0 6 [2; 3]). split; [now apply Ch_new; cbn; lia|]. split; [eexists; split; reflexivity|].
  eexists _, _. split; vm_compute; reflexivity.
Qed.
Print Assumptions C28_extra_subscript_refuted.
(** fewer subscripts than operands: the extra operand contributes its first element only *)
Theorem C28_missing_subscript_refuted : exists (h : heap nat) a, chain 0 6 false a /\ live h 0 6 /\
  exists h' r, nd_einsum 0 1 (okadd Nat.add) (okadd Nat.mul) (okfma Nat.add Nat.mul) h [a; a] [[105; 106]]%Z [105]%Z = Ok (h', r) /\
    elems h' r = Ok [12; 30].
Proof.
  exists [Some [2; 2; 2; 4; 5; 6]], (fresh_arr 0 6 [2; 3]). split; [now apply Ch_new; cbn; lia|]. split; [eexists; split; reflexivity|].
  eexists _, _. split; vm_compute; reflexivity.
Qed.
Print Assumptions C28_missing_subscript_refuted.
(** "i..,i..->" on operands of shapes [2;3] and [2;2]: the ellipsis axes differ in length and
    are ignored *)
Theorem C28_ellipsis_refuted : exists (h : heap nat) a b, chain 0 6 false a /\ live h 0 6 /\ chain 1 4 false b /\ live h 1 4 /\
  a_shape a = [2; 3] /\ a_shape b = [2; 2] /\
  exists h' r, nd_einsum 0 1 (okadd Nat.add) (okadd Nat.mul) (okfma Nat.add Nat.mul) h [a; b] [[105; 46; 46]; [105; 46; 46]]%Z [] = Ok (h', r) /\
    elems h' r = Ok [22].
Proof.
  exists [Some [1; 2; 3; 4; 5; 6]; Some [10; 0; 3; 0]], (fresh_arr 0 6 [2; 3]), (fresh_arr 1 4 [2; 2]).
  split; [now apply Ch_new; cbn; lia|]. split; [eexists; split; reflexivity|].
  split; [now apply Ch_new; cbn; lia|]. split; [eexists; split; reflexivity|]. split; [reflexivity|]. split; [reflexivity|].
  eexists _, _. split; vm_compute; reflexivity.
Qed.
Print Assumptions C28_ellipsis_refuted.

(** bmm with different inner dimensions *)
Theorem C26_bmm_inner_mismatch_panics : forall T (zero one : T) add mul fma (h : heap T) a b q n k k' m,
  a_shape a = [q; n; k] -> a_shape b = [q; k'; m] -> k <> k' -> 0 < q -> 0 < n -> 0 < k -> 0 < k' -> 0 < m ->
  length (a_stride a) = 3 -> length (a_stride b) = 3 ->
  nd_bmm zero one add mul fma h a b = Panic.
Proof.
  intros T zero one add mul fma h a b q n k k' m Sa Sb NK Q N K K' M La Lb. unfold nd_bmm. rewrite Sa, Sb.
  rewrite Nat.eqb_refl. cbn [guard bind]. unfold nd_full. rewrite repeat_length.
  assert (PP : prod [q; n; m] = q * (n * m)) by (cbn; lia). rewrite PP. rewrite (proj2 (Nat.eqb_neq _ _)) by nia. cbn [negb guard bind from_buffer alloc].
  rewrite repeat_length. set (r := fresh_arr (length h) (q * (n * m)) [q; n; m]).
  assert (ER : a_stride r = [n * m; m; 1]). { unfold r. cbn [fresh_arr a_stride]. rewrite stride_from_shape_rm. cbn [rm_stride prod fold_right]. now rewrite Nat.mul_1_r. }
  rewrite ER.
  assert (SL : forall (c : arr) x y z, a_shape c = [x; y; z] -> 0 < y -> 0 < z -> length (a_stride c) = 3 ->
     exists s0 s1 s2 l f, a_stride c = [s0; s1; s2] /\ nd_slice_along c 0 (IUsize 0) = Ok (mkArr (a_blk c) (a_off c) l l [y; z] [s1; s2] f)).
  { intros c x y z Sc Y Z0 Lc. destruct (a_stride c) as [|s0 [|s1 [|s2 [|? ?]]]] eqn:Ec; try discriminate.
    unfold nd_slice_along. rewrite Sc, Ec. change (as_absolute 0 (length [x; y; z])) with (Ok 0).
    cbn [bind vget nth_error index_collapses vremove index_first].
    destruct (strided_len_ok [y; z] [s1; s2] eq_refl) as (l & El & _).
    { intros u [<-|[<-|[]]]; assumption. }
    exists s0, s1, s2, l. eexists. split; [reflexivity|]. rewrite El. cbn [bind]. rewrite Nat.mul_0_r, Nat.add_0_r. reflexivity. }
  destruct (SL a q n k Sa N K La) as (a0 & a1 & a2 & la & fa & Ea & ->).
  destruct (SL b q k' m Sb K' M Lb) as (b0 & b1 & b2 & lb & fb & Eb & ->). clear SL. cbn [bind]. rewrite Ea, Eb. cbn [vget nth_error bind tl].
  destruct q as [|q]; [lia|]. cbn [bmm_go]. unfold matrix_matrix, einsum_into_ptr.
  match goal with |- context [prepare_einsum ?o ?s ?u] => destruct (prepare_einsum o s u) as [x| |] eqn:E; [exfalso|reflexivity|exfalso; now apply (prepare_no_oob o s u)] end.
  apply prepare_inv in E as (_ & (dm & HS) & _).
  - destruct (HS 0 _ _ eq_refl eq_refl) as [_ H0]. destruct (HS 1 _ _ eq_refl eq_refl) as [_ H1].
    specialize (H0 1 106%Z eq_refl eq_refl). specialize (H1 0 106%Z eq_refl eq_refl). cbn in H0, H1. congruence.
  - unfold matmul_subs, DOT. repeat constructor; intros I; repeat (destruct I as [I|I]; [discriminate|]); destruct I.
  - unfold matmul_out, DOT. intros I; repeat (destruct I as [I|I]; [discriminate|]); destruct I.
Qed.
Print Assumptions C26_bmm_inner_mismatch_panics.
