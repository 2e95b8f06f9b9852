(** PropsVendor.v: matrix products computed by a BLAS library. *)
From Coq Require Import List Arith Lia Bool ZArith.
From Verif Require Import Base Spec Layout SpecFacts LayoutFacts Views ViewsFacts ViewsFacts2 ViewsFacts3 Kernels Access HeapFacts
  KernelFacts OpFacts AccessFacts Chain ChainFacts Reduce ReduceFacts Einsum EinsumFacts EinsumFacts2 EinsumFacts3 EinsumFacts7 PropsViews PropsOps PropsReduce PropsEinsum
  Vendor VendorFacts.
Import ListNotations.
Open Scope res_scope.

(** ** C52.  [bad] is the library's answer to an illegal parameter; the theorems about
    correct results hold whatever it is.  Sizes below 2^31 are passed as C ints. *)
Definition fits (n : nat) : Prop := (Z.of_nat n < 2 ^ 31)%Z.

Theorem C52_dot : forall T (zero one : T) add mul, is_csr zero one add mul -> forall (h : heap T) a b va vb n s t,
  a_shape a = [n] -> a_shape b = [n] -> 0 < n -> holds h a va -> holds h b vb ->
  a_stride a = [s] -> a_stride b = [t] -> fits n -> fits s -> fits t ->
  exists h' r, b_dot zero (okadd add) (okadd mul) h a b = Ok (h', r) /\
    fresh_result h h' r [] (fun _ => Ok (bigsum add zero (map (fun k => mul (va [k]) (vb [k])) (seq 0 n)))).
Proof.
  intros T zero one add mul CSR h a b va vb n s t Sa Sb N Ha Hb Ea Eb FN FS FT.
  destruct (C26_dot T zero one add mul CSR h a b va vb n Sa Sb N Ha Hb) as (h' & r & E & R). exists h', r. split; [|exact R]. rewrite <- E.
  unfold b_dot, nd_dot. rewrite Sa, Sb, Ea, Eb, Nat.eqb_refl. cbn [guard bind nd_scalar nd_full prod fold_right repeat length Nat.eqb negb from_buffer alloc].
  unfold b_strided_dot, strided_dot, cblas_dot. rewrite !as_i32_back by assumption. rewrite !as_i32_small by assumption.
  rewrite (proj2 (Z.leb_gt _ _)) by lia. rewrite !(proj2 (Z.ltb_ge _ _)) by lia. cbn [orb]. reflexivity.
Qed.
Print Assumptions C52_dot.

(** The routine is called with legal parameters: if the rows of the matrix are contiguous,
    they do not overlap, and the vector has a stride. *)
Theorem C52_matvec_partial : forall T (zero one : T) add mul bad, is_csr zero one add mul -> forall (h : heap T) a b va vb n k,
  a_shape a = [n; k] -> a_shape b = [k] -> 0 < n -> 0 < k -> fits n -> fits k -> holds h a va -> holds h b vb ->
  (forall s t, a_stride a = [s; 1] -> a_stride b = [t] -> k <= s /\ 0 < t /\ fits s /\ fits t) ->
  exists h' r, b_matmul zero one (okadd add) (okadd mul) (okfma add mul) bad h a b = Ok (h', r) /\
    fresh_result h h' r [n] (fun idx => Ok (bigsum add zero (map (fun t => mul (va [hd 0 idx; t]) (vb [t])) (seq 0 k)))).
Proof.
  intros T zero one add mul bad CSR h a b va vb n k Sa Sb N K FN FK Ha Hb LEG. unfold b_matmul. rewrite Sa, Sb, Nat.eqb_refl. cbn [guard bind].
  unfold b_matrix_vector. pose proof (proj1 Ha) as La'. pose proof (proj1 Hb) as Lb'. rewrite Sa in La'. rewrite Sb in Lb'.
  destruct (a_stride a) as [|rs [|s [|? ?]]] eqn:Ea; try discriminate. destruct (a_stride b) as [|t [|? ?]] eqn:Eb; try discriminate.
  cbn [vget nth_error bind]. destruct (Nat.eqb_spec s 1) as [->|NS]; cbn [negb].
  - destruct (LEG _ _ eq_refl eq_refl) as (L1 & L2 & F1 & F2). rewrite Sa. cbn [vget nth_error bind alloc].
    pose proof (holds_live h a va ltac:(rewrite Sa; auto) Ha) as La. pose proof (holds_live h b vb ltac:(rewrite Sb; auto) Hb) as Lb.
    destruct (gemv_ok zero one add mul CSR bad (h ++ [Some (repeat zero n)]) n k (a_ptr a) (a_ptr b) (length h, 0) rs t 0 (fun i t => va [i; t]) (fun t => vb [t]))
      as (h' & E & L & A1 & A0 & A2); auto.
    + cbn. lia.
    + cbn. lia.
    + intros i j I J. destruct Ha as [_ Ha]. rewrite Sa in Ha. specialize (Ha [i; j] ltac:(repeat constructor; assumption)). unfold get in Ha. rewrite Ea in Ha. cbn [dot] in Ha.
      rewrite Nat.mul_1_r, Nat.add_0_r in Ha. unfold ld. cbn [padd a_ptr fst snd]. now rewrite load_app_old by exact La.
    + intros j J. destruct Hb as [_ Hb]. rewrite Sb in Hb. specialize (Hb [j] ltac:(repeat constructor; assumption)). unfold get in Hb. rewrite Eb in Hb. cbn [dot] in Hb. rewrite Nat.add_0_r in Hb.
      unfold ld. cbn [padd a_ptr fst snd]. now rewrite load_app_old by exact Lb.
    + intros i I. cbn [fst plus]. exists zero. rewrite load_app_new. now rewrite nth_error_repeat by exact I.
    + unfold okadd, okfma. rewrite E. cbn [bind]. eexists _, _. split; [reflexivity|].
      assert (PN : prod [n] = n) by (cbn; lia). rewrite <- PN at 1.
      apply (fresh_result_written h h' [n] (fun idx => bigsum add zero (map (fun t => mul (va [hd 0 idx; t]) (vb [t])) (seq 0 k)))).
      * lia.
      * rewrite L, app_length. cbn [length]. lia.
      * intros c o C. rewrite A1 by (cbn; lia). now apply load_app_old.
      * intros idx R. destruct idx as [|i [|? ?]]; inversion R as [|? ? ? ? I R']; subst; try now inversion R'. cbn [rank prod fold_right hd].
        rewrite Nat.mul_1_r, Nat.add_0_r. apply (A2 i I).
      * cbn [fst] in A0. rewrite A0 by (rewrite PN; lia). rewrite load_app_new, PN. now rewrite (proj2 (nth_error_None _ _)) by (rewrite repeat_length; lia).
  - set (dm := fun l : Z => if (l =? 105)%Z then n else k).
    destruct (C27_einsum_partial T zero one add mul CSR h [a; b] matvec_subs [va; vb] matvec_out [106%Z] dm) as (h' & r & E & R).
    + repeat (apply Forall_cons || apply Forall_nil); unfold letter; lia.
    + repeat (apply Forall_cons || apply Forall_nil); unfold letter; lia.
    + repeat constructor; cbn; intuition congruence.
    + intros l. cbn. split.
      * intros [<-|[<-|[]]]; exists [105; 106]%Z; cbn; auto.
      * intros (x & [<-|[<-|[]]] & I); cbn in I; intuition.
    + discriminate.
    + cbn. lia.
    + cbn. lia.
    + repeat constructor; auto; cbn; lia.
    + repeat constructor; auto; try apply Ha; try apply Hb.
    + intros l. cbn. intros [<-|[<-|[]]]; cbn; auto.
    + exists h', r. split; [exact E|]. revert R. change (map dm matvec_out) with [n].
      unfold fresh_result. intros (R1 & R2 & R3 & R4 & R5 & R6 & R7). repeat (split; [assumption|]). intros idx I. rewrite (R7 idx I). f_equal.
      destruct idx as [|i [|? ?]]; inversion I as [|? ? ? ? _ I']; subst; try now inversion I'.
      unfold einsum_value. cbn [map dm Z.eqb Pos.eqb]. rewrite indices_one, map_map. f_equal. apply map_ext. intros t0.
      cbn [matvec_subs matvec_out combine map fst snd app lookup Z.eqb Pos.eqb bigsum fold_right hd]. f_equal. apply (mul_1_r zero one add mul CSR).
Qed.
Print Assumptions C52_matvec_partial.

Theorem C52_matmul_partial : forall T (zero one : T) add mul bad, is_csr zero one add mul -> forall (h : heap T) a b va vb n k m,
  a_shape a = [n; k] -> a_shape b = [k; m] -> 0 < n -> 0 < k -> 0 < m -> fits n -> fits k -> fits m -> holds h a va -> holds h b vb ->
  (forall s t, a_stride a = [s; 1] -> a_stride b = [t; 1] -> k <= s /\ m <= t /\ fits s /\ fits t) ->
  exists h' r, b_matmul zero one (okadd add) (okadd mul) (okfma add mul) bad h a b = Ok (h', r) /\
    fresh_result h h' r [n; m] (fun idx => Ok (bigsum add zero (map (fun t => mul (va [nth 0 idx 0; t]) (vb [t; nth 1 idx 0])) (seq 0 k)))).
Proof.
  intros T zero one add mul bad CSR h a b va vb n k m Sa Sb N K M FN FK FM Ha Hb LEG. unfold b_matmul. rewrite Sa, Sb.
  pose proof (holds_live h a va ltac:(rewrite Sa; auto) Ha) as La. pose proof (holds_live h b vb ltac:(rewrite Sb; auto) Hb) as Lb.
  rewrite Nat.eqb_refl. cbn [guard bind]. unfold nd_full. rewrite repeat_length.
  assert (PP : prod [n; m] = n * m) by (cbn; lia). rewrite PP. rewrite (proj2 (Nat.eqb_neq _ _)) by nia. cbn [negb guard bind from_buffer alloc].
  rewrite repeat_length. unfold fresh_arr at 1 2. cbn [a_stride a_ptr a_blk a_off]. rewrite stride_from_shape_rm. cbn [rm_stride prod fold_right]. rewrite Nat.mul_1_r.
  destruct (b_matrix_matrix_ok zero one add mul CSR bad (h ++ [Some (repeat zero (n * m))]) (length h) 0 a b va vb n k m Sa Sb N K M FN FK FM LEG) as (h' & E & L & A1 & A2 & A3).
  - apply holds_ext with h; auto; [rewrite Sa; auto|]. intros o. now apply load_app_old.
  - apply holds_ext with h; auto; [rewrite Sb; auto|]. intros o. now apply load_app_old.
  - lia.
  - lia.
  - intros x X. exists zero. cbn [plus]. rewrite load_app_new. now rewrite nth_error_repeat by exact X.
  - unfold okadd, okfma. change (a_ptr {| a_blk := length h; a_off := 0; a_len := n * m; a_cap := n * m; a_shape := [n; m]; a_stride := [m; 1]; a_fl := fresh_flags |}) with (length h, 0).
    rewrite E. cbn [bind]. eexists _, _. split; [reflexivity|]. rewrite <- PP.
    apply (fresh_result_written h h' [n; m] (fun idx => bigsum add zero (map (fun t => mul (va [nth 0 idx 0; t]) (vb [t; nth 1 idx 0])) (seq 0 k)))).
    + rewrite PP. nia.
    + rewrite L, app_length. cbn [length]. lia.
    + intros c o C. rewrite A1 by lia. now apply load_app_old.
    + intros idx R. destruct idx as [|i idx]; [inversion R|]. apply in_range_cons in R as [I R]. destruct idx as [|j idx]; [inversion R|]. apply in_range_cons in R as [J R].
      inversion R; subst. cbn [rank prod fold_right nth]. specialize (A3 i j I J). cbn [plus] in A3. rewrite <- A3. f_equal. lia.
    + rewrite A2 by (rewrite PP; lia). rewrite load_app_new, PP. now rewrite (proj2 (nth_error_None _ _)) by (rewrite repeat_length; lia).
Qed.
Print Assumptions C52_matmul_partial.

Theorem C52_bmm_partial : forall T (zero one : T) add mul bad, is_csr zero one add mul -> forall (h : heap T) a b va vb q n k m,
  a_shape a = [q; n; k] -> a_shape b = [q; k; m] -> 0 < q -> 0 < n -> 0 < k -> 0 < m -> fits n -> fits k -> fits m -> holds h a va -> holds h b vb ->
  (forall s0 s t0 t, a_stride a = [s0; s; 1] -> a_stride b = [t0; t; 1] -> k <= s /\ m <= t /\ fits s /\ fits t) ->
  exists h' r, b_bmm zero one (okadd add) (okadd mul) (okfma add mul) bad h a b = Ok (h', r) /\
    fresh_result h h' r [q; n; m] (fun idx => Ok (bigsum add zero
      (map (fun t => mul (va [nth 0 idx 0; nth 1 idx 0; t]) (vb [nth 0 idx 0; t; nth 2 idx 0])) (seq 0 k)))).
Proof.
  intros T zero one add mul bad CSR h a b va vb q n k m Sa Sb Q N K M FN FK FM Ha Hb LEG. unfold b_bmm. rewrite Sa, Sb.
  pose proof (holds_live h a va ltac:(rewrite Sa; auto) Ha) as La. pose proof (holds_live h b vb ltac:(rewrite Sb; auto) Hb) as Lb.
  rewrite Nat.eqb_refl. cbn [guard bind]. unfold nd_full. rewrite repeat_length.
  assert (PP : prod [q; n; m] = q * (n * m)) by (cbn; lia). rewrite PP. rewrite (proj2 (Nat.eqb_neq _ _)) by nia. cbn [negb guard bind from_buffer alloc].
  rewrite repeat_length. set (r := fresh_arr (length h) (q * (n * m)) [q; n; m]).
  assert (ER : a_stride r = [n * m; m; 1]). { unfold r. cbn [fresh_arr a_stride]. rewrite stride_from_shape_rm. cbn [rm_stride prod fold_right]. now rewrite Nat.mul_1_r. }
  rewrite ER.
  assert (SL : forall (c : arr) v x y z, a_shape c = [x; y; z] -> 0 < x -> 0 < y -> 0 < z -> holds h c v ->
     exists s0 s1 s2 l f, a_stride c = [s0; s1; s2] /\ nd_slice_along c 0 (IUsize 0) = Ok (mkArr (a_blk c) (a_off c) l l [y; z] [s1; s2] f)).
  { intros c v x y z Sc X Y Z0 [Lc _]. rewrite Sc in Lc. destruct (a_stride c) as [|s0 [|s1 [|s2 [|? ?]]]] eqn:Ec; try discriminate.
    unfold nd_slice_along. rewrite Sc, Ec. change (as_absolute 0 (length [x; y; z])) with (Ok 0).
    cbn [bind vget nth_error index_collapses vremove index_first].
    destruct (strided_len_ok [y; z] [s1; s2] eq_refl) as (l & El & _).
    { intros u [<-|[<-|[]]]; assumption. }
    exists s0, s1, s2, l. eexists. split; [reflexivity|]. rewrite El. cbn [bind]. rewrite Nat.mul_0_r, Nat.add_0_r. reflexivity. }
  destruct (SL a va q n k Sa Q N K Ha) as (a0 & a1 & a2 & la & fa & Ea & ->).
  destruct (SL b vb q k m Sb Q K M Hb) as (b0 & b1 & b2 & lb & fb & Eb & ->). clear SL. cbn [bind]. rewrite Ea, Eb. cbn [vget nth_error bind tl].
  destruct (b_bmm_go_ok zero one add mul CSR bad (length h) a0 b0 n k m N K M FN FK FM q (h ++ [Some (repeat zero (q * (n * m)))]) 0
     (mkArr (a_blk a) (a_off a) la la [n; k] [a1; a2] fa) (mkArr (a_blk b) (a_off b) lb lb [k; m] [b1; b2] fb) (fun t idx => va (t :: idx)) (fun t idx => vb (t :: idx)))
    as (h' & E & L & A1 & A2 & A3).
  - reflexivity.
  - reflexivity.
  - cbn. lia.
  - cbn. lia.
  - intros s t E1 E2. cbn [a_stride] in E1, E2. injection E1 as -> ->. injection E2 as -> ->. apply (LEG _ _ _ _ Ea Eb).
  - intros t X. split; [reflexivity|]. cbn [shift_arr a_shape]. intros idx R. destruct Ha as [_ Ha]. rewrite Sa in Ha. specialize (Ha (t :: idx) ltac:(constructor; assumption)).
    unfold get in *. rewrite Ea in Ha. cbn [dot] in Ha. cbn [shift_arr a_blk a_off a_stride]. rewrite load_app_old by exact La. rewrite <- Ha. f_equal. lia.
  - intros t X. split; [reflexivity|]. cbn [shift_arr a_shape]. intros idx R. destruct Hb as [_ Hb]. rewrite Sb in Hb. specialize (Hb (t :: idx) ltac:(constructor; assumption)).
    unfold get in *. rewrite Eb in Hb. cbn [dot] in Hb. cbn [shift_arr a_blk a_off a_stride]. rewrite load_app_old by exact Lb. rewrite <- Hb. f_equal. lia.
  - intros x X. exists zero. cbn [plus]. rewrite load_app_new. now rewrite nth_error_repeat by exact X.
  - unfold okadd, okfma. change (a_ptr r) with (length h, 0). rewrite E. cbn [bind]. eexists _, _. split; [reflexivity|]. unfold r. rewrite <- PP.
    apply (fresh_result_written h h' [q; n; m] (fun idx => bigsum add zero
      (map (fun t => mul (va [nth 0 idx 0; nth 1 idx 0; t]) (vb [nth 0 idx 0; t; nth 2 idx 0])) (seq 0 k)))).
    + rewrite PP. nia.
    + rewrite L, app_length. cbn [length]. lia.
    + intros c o C. rewrite A1 by lia. now apply load_app_old.
    + intros idx R. destruct idx as [|t idx]; [inversion R|]. apply in_range_cons in R as [TT R].
      destruct idx as [|i idx]; [inversion R|]. apply in_range_cons in R as [I R]. destruct idx as [|j idx]; [inversion R|]. apply in_range_cons in R as [J R].
      inversion R; subst. cbn [rank prod fold_right nth]. specialize (A3 t i j TT I J). cbn [plus] in A3. rewrite <- A3. f_equal. lia.
    + rewrite A2 by (rewrite PP; lia). rewrite load_app_new, PP. now rewrite (proj2 (nth_error_None _ _)) by (rewrite repeat_length; lia).
Qed.
Print Assumptions C52_bmm_partial.

(** Row-major operands always give legal parameters. *)
Theorem C52_matmul_row_major : forall T (zero one : T) add mul bad, is_csr zero one add mul -> forall (h : heap T) a b va vb n k m,
  a_shape a = [n; k] -> a_shape b = [k; m] -> a_stride a = [k; 1] -> a_stride b = [m; 1] ->
  0 < n -> 0 < k -> 0 < m -> fits n -> fits k -> fits m -> holds h a va -> holds h b vb ->
  exists h' r, b_matmul zero one (okadd add) (okadd mul) (okfma add mul) bad h a b = Ok (h', r) /\
    fresh_result h h' r [n; m] (fun idx => Ok (bigsum add zero (map (fun t => mul (va [nth 0 idx 0; t]) (vb [t; nth 1 idx 0])) (seq 0 k)))).
Proof.
  intros T zero one add mul bad CSR h a b va vb n k m Sa Sb Ea Eb N K M FN FK FM Ha Hb.
  apply (C52_matmul_partial T zero one add mul bad CSR h a b va vb n k m); auto.
  intros s t E1 E2. rewrite Ea in E1. rewrite Eb in E2. injection E1 as <-. injection E2 as <-. auto.
Qed.
Print Assumptions C52_matmul_row_major.

(** What happens otherwise, for every element type and every content: the product is
    refused by a library that stops, and is all zeros from one that reports and returns. *)
Theorem C52_illegal : forall T (zero one : T) add mul fma (h : heap T) a b n k m s t,
  a_shape a = [n; k] -> a_shape b = [k; m] -> a_stride a = [s; 1] -> a_stride b = [t; 1] -> 0 < n -> 0 < k -> 0 < m ->
  fits n -> fits k -> fits m -> fits s -> fits t -> s < k \/ t < m ->
  b_matmul zero one add mul fma (fun _ => Panic) h a b = Panic /\
  exists h' r, b_matmul zero one add mul fma Ok h a b = Ok (h', r) /\ fresh_result h h' r [n; m] (fun _ => Ok zero).
Proof.
  intros T zero one add mul fma h a b n k m s t Sa Sb Ea Eb N K M FN FK FM FS FT BAD. unfold b_matmul. rewrite Sa, Sb, Nat.eqb_refl. cbn [guard bind].
  unfold nd_full. rewrite repeat_length.
  assert (PP : prod [n; m] = n * m) by (cbn; lia). rewrite PP. rewrite (proj2 (Nat.eqb_neq _ _)) by nia. cbn [negb guard bind from_buffer alloc].
  rewrite repeat_length. unfold b_matrix_matrix. rewrite Sa, Sb, Ea, Eb. cbn [vget nth_error bind Nat.eqb negb orb].
  unfold cblas_gemm. rewrite !as_i32_small by assumption.
  replace ((0 <=? Z.of_nat n) && (0 <=? Z.of_nat m) && (0 <=? Z.of_nat k) && (Z.max 1 (Z.of_nat k) <=? Z.of_nat s) &&
             (Z.max 1 (Z.of_nat m) <=? Z.of_nat t) && (Z.max 1 (Z.of_nat m) <=? Z.of_nat m))%Z with false
    by (symmetry; apply not_true_iff_false; rewrite !andb_true_iff, !Z.leb_le; lia).
  split; [reflexivity|]. cbn [bind]. eexists _, _. split; [reflexivity|]. rewrite <- PP.
  apply (fresh_result_written h (h ++ [Some (repeat zero (prod [n; m]))]) [n; m] (fun _ => zero)).
  - rewrite PP. nia.
  - rewrite app_length. cbn [length]. lia.
  - intros c o C. now apply load_app_old.
  - intros idx R. rewrite load_app_new. rewrite nth_error_repeat; [reflexivity|]. now apply rank_lt.
  - rewrite load_app_new. now rewrite (proj2 (nth_error_None _ _)) by (rewrite repeat_length; lia).
Qed.
Print Assumptions C52_illegal.

(** Operands whose shapes do not fit are refused before the library is called, except by bmm
    (see C52_bmm_mismatch_refuted): dot and matmul accept exactly these shapes. *)
Definition product_shapes (x y : list nat) : Prop :=
  (exists n, x = [n] /\ y = [n]) \/ (exists n k, x = [n; k] /\ y = [k]) \/ (exists n k m, x = [n; k] /\ y = [k; m]).
Theorem C52_rejects : forall T (zero one : T) add mul fma bad (h : heap T) a b,
  (~ (exists n, a_shape a = [n] /\ a_shape b = [n]) -> b_dot zero add mul h a b = Panic) /\
  (~ product_shapes (a_shape a) (a_shape b) -> b_matmul zero one add mul fma bad h a b = Panic) /\
  (~ (exists q n k k' m, a_shape a = [q; n; k] /\ a_shape b = [q; k'; m]) -> b_bmm zero one add mul fma bad h a b = Panic).
Proof.
  intros T zero one add mul fma bad h a b.
  assert (D : ~ (exists n, a_shape a = [n] /\ a_shape b = [n]) -> b_dot zero add mul h a b = Panic).
  { intros NO. unfold b_dot. destruct (a_shape a) as [|n [|? ?]]; try reflexivity. destruct (a_shape b) as [|m [|? ?]]; try reflexivity.
    destruct (a_stride a) as [|s [|? ?]]; try reflexivity. destruct (a_stride b) as [|t [|? ?]]; try reflexivity.
    destruct (Nat.eqb_spec n m) as [->|N]; [exfalso; apply NO; now exists m|reflexivity]. }
  split; [exact D|]. split.
  - intros NO. unfold b_matmul. destruct (a_shape a) as [|n [|k [|? ?]]] eqn:Sa; try reflexivity.
    + destruct (a_shape b) as [|m [|? ?]] eqn:Sb; try reflexivity. apply D. intros (x & X & Y). apply NO. left. now exists x.
    + destruct (a_shape b) as [|k' [|m [|? ?]]] eqn:Sb; try reflexivity.
      * destruct (Nat.eqb_spec k k') as [->|N]; [exfalso; apply NO; right; left; now exists n, k'|reflexivity].
      * destruct (Nat.eqb_spec k k') as [->|N]; [exfalso; apply NO; right; right; now exists n, k', m|reflexivity].
  - intros NO. unfold b_bmm. destruct (a_shape a) as [|q [|n [|k [|? ?]]]] eqn:Sa; try reflexivity.
    destruct (a_shape b) as [|q' [|k' [|m [|? ?]]]] eqn:Sb; try reflexivity.
    destruct (Nat.eqb_spec q q') as [->|N]; [exfalso; apply NO; now exists q', n, k, k', m|reflexivity].
Qed.
Print Assumptions C52_rejects.

(** Witnesses: the transpose of a 3x1 column (no broadcasting involved) times the column
    itself; the portable code gives 14. *)
Definition exv : heap nat := [Some [1; 2; 3]; Some [1; 2; 3; 4; 5; 6]; Some [7]; Some [1; 1]].
Theorem C52_transposed_column_refuted : exists col row, chain 0 3 false col /\ chain 0 3 false row /\ nd_T ByRef col = Ok row /\
  (exists h' r, nd_matmul 0 1 (okadd Nat.add) (okadd Nat.mul) (okfma Nat.add Nat.mul) exv row col = Ok (h', r) /\ get h' r [0; 0] = Ok 14) /\
  b_matmul 0 1 (okadd Nat.add) (okadd Nat.mul) (okfma Nat.add Nat.mul) (fun _ => Panic) exv row col = Panic /\
  (exists h' r, b_matmul 0 1 (okadd Nat.add) (okadd Nat.mul) (okfma Nat.add Nat.mul) Ok exv row col = Ok (h', r) /\ get h' r [0; 0] = Ok 0).
Proof.
  pose proof (Ch_new 0 3 [3; 1] eq_refl ltac:(lia)) as C. eexists _, _. split; [exact C|].
  split; [refine (Ch_transpose 0 3 false _ ByRef 0 1 _ C _); vm_compute; reflexivity|]. split; [vm_compute; reflexivity|].
  split; [eexists _, _; split; vm_compute; reflexivity|]. split; [vm_compute; reflexivity|]. eexists _, _; split; vm_compute; reflexivity.
Qed.
Print Assumptions C52_transposed_column_refuted.

(** a matrix times a vector made by broadcasting a scalar: increment 0 is illegal *)
Theorem C52_broadcast_vector_refuted : exists s v mat, chain 2 1 false s /\ nd_broadcast_to s [3] = Ok v /\ chain 1 6 false mat /\
  (exists h' r, nd_matmul 0 1 (okadd Nat.add) (okadd Nat.mul) (okfma Nat.add Nat.mul) exv mat v = Ok (h', r) /\ elems h' r = Ok [42; 105]) /\
  b_matmul 0 1 (okadd Nat.add) (okadd Nat.mul) (okfma Nat.add Nat.mul) (fun _ => Panic) exv mat v = Panic /\
  (exists h' r, b_matmul 0 1 (okadd Nat.add) (okadd Nat.mul) (okfma Nat.add Nat.mul) Ok exv mat v = Ok (h', r) /\ elems h' r = Ok [0; 0]).
Proof.
  exists (fresh_arr 2 1 []). eexists. exists (fresh_arr 1 6 [2; 3]). split; [apply Ch_new; cbn; lia|]. split; [vm_compute; reflexivity|]. split; [apply Ch_new; cbn; lia|].
  split; [eexists _, _; split; vm_compute; reflexivity|]. split; [vm_compute; reflexivity|]. eexists _, _; split; vm_compute; reflexivity.
Qed.
Print Assumptions C52_broadcast_vector_refuted.

(** bmm does not compare the inner dimensions itself; with the library nothing else does.
    One product reads past the end of its operand, another returns a number. *)
Theorem C52_bmm_mismatch_refuted : exists a b c, chain 3 2 false a /\ chain 2 1 false b /\ chain 3 2 false c /\
  a_shape a = [1; 1; 2] /\ a_shape b = [1; 1; 1] /\ a_shape c = [1; 2; 1] /\
  nd_bmm 0 1 (okadd Nat.add) (okadd Nat.mul) (okfma Nat.add Nat.mul) exv a b = Panic /\
  b_bmm 0 1 (okadd Nat.add) (okadd Nat.mul) (okfma Nat.add Nat.mul) (fun _ => Panic) exv a b = Oob /\
  nd_bmm 0 1 (okadd Nat.add) (okadd Nat.mul) (okfma Nat.add Nat.mul) exv b c = Panic /\
  (exists h' r, b_bmm 0 1 (okadd Nat.add) (okadd Nat.mul) (okfma Nat.add Nat.mul) (fun _ => Panic) exv b c = Ok (h', r) /\ get h' r [0; 0; 0] = Ok 7).
Proof.
  exists (fresh_arr 3 2 [1; 1; 2]), (fresh_arr 2 1 [1; 1; 1]), (fresh_arr 3 2 [1; 2; 1]).
  do 3 (split; [apply Ch_new; cbn; lia|]). do 3 (split; [reflexivity|]). do 3 (split; [vm_compute; reflexivity|]). eexists _, _; split; vm_compute; reflexivity.
Qed.
Print Assumptions C52_bmm_mismatch_refuted.

(** The hypotheses are met by ordinary arrays: a 2x3 matrix by a 3x2 one through the library,
    a transposed one through the fallback, and a slice with row stride 3 and row length 2. *)
Example C52_ex : let op := okadd Nat.add in let mu := okadd Nat.mul in let fm := okfma Nat.add Nat.mul in
  let a := fresh_arr 1 6 [2; 3] in let c := fresh_arr 1 6 [3; 2] in let v := fresh_arr 0 3 [3] in
  let out := fun x : res (heap nat * arr) => bind x (fun hr => elems (fst hr) (snd hr)) in
  out (b_matmul 0 1 op mu fm (fun _ => Panic) exv a c) = Ok [22; 28; 49; 64] /\
  out (b_matmul 0 1 op mu fm (fun _ => Panic) exv a v) = Ok [14; 32] /\
  bind (nd_T ByRef a) (fun t => out (b_matmul 0 1 op mu fm (fun _ => Panic) exv a t)) = Ok [14; 32; 32; 77] /\
  bind (nd_slice a [IRange 0 2; IRange 0 2]) (fun s => Ok (a_stride s)) = Ok [3; 1] /\
  bind (nd_slice a [IRange 0 2; IRange 0 2]) (fun s => out (b_matmul 0 1 op mu fm (fun _ => Panic) exv s s)) = Ok [9; 12; 24; 33] /\
  out (b_bmm 0 1 op mu fm (fun _ => Panic) exv (fresh_arr 1 6 [3; 1; 2]) (fresh_arr 1 6 [3; 2; 1])) = Ok [5; 25; 61] /\
  out (b_dot 0 op mu exv v v) = Ok [14].
Proof. vm_compute. repeat split. Qed.
