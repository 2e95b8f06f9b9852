(** KernelFacts.v: every elementwise kernel is one loop over address lists. *)
From Coq Require Import List Arith Lia Bool.
From Verif Require Import Base Spec Layout SpecFacts LayoutFacts Views ViewsFacts ViewsFacts2 ViewsFacts3 Kernels HeapFacts.
Import ListNotations.
Open Scope res_scope.

Section Loop.
  Context {T : Type}.

  (** reference loop: operands given by thunks on the heap, destination consecutive *)
  Fixpoint loop (h : heap T) (ops : list (heap T -> res T)) (dst : ptr) : res (heap T) :=
    match ops with
    | [] => Ok h
    | o :: ops' => v <- o h ;; h' <- st h dst v ;; loop h' ops' (padd dst 1)
    end.

  Definition cell2 (f : T -> T -> res T) (lhs rhs : src T) (p : nat * nat) : heap T -> res T :=
    fun h => x <- src_ld h (src_add lhs (fst p)) ;; y <- src_ld h (src_add rhs (snd p)) ;; f x y.

  Lemma src_add_add (s : src T) a b : src_add (src_add s a) b = src_add s (a + b).
  Proof. destruct s as [[b0 o]|v]; cbn [src_add]; [unfold padd; cbn [fst snd]; now rewrite Nat.add_assoc|reflexivity]. Qed.

  Lemma src_add_0 (s : src T) : src_add s 0 = s.
  Proof. destruct s as [[b0 o]|v]; cbn [src_add]; [unfold padd; cbn [fst snd]; now rewrite Nat.add_0_r|reflexivity]. Qed.

  Lemma loop_ext h ops1 : forall ops2 dst, Forall2 (fun o1 o2 => forall h, o1 h = o2 h) ops1 ops2 -> loop h ops1 dst = loop h ops2 dst.
  Proof.
    revert h; induction ops1 as [|o ops1 IH]; intros h ops2 dst F; inversion F as [|? o2 ? ops2' E F']; subst; [reflexivity|].
    cbn [loop]. rewrite E. apply bind_ext. intros v _. apply bind_ext. intros h' _. now apply IH.
  Qed.

  Definition strided (n s : nat) : list nat := map (fun k => k * s) (seq 0 n).

  Lemma strided_S n s : strided (S n) s = 0 :: map (Nat.add s) (strided n s).
  Proof.
    unfold strided. cbn [seq map]. f_equal. rewrite <- seq_shift, !map_map. apply map_ext. intros; lia.
  Qed.

  Lemma strided_length n s : length (strided n s) = n.
  Proof. unfold strided. now rewrite map_length, seq_length. Qed.

  Variable f : T -> T -> res T.

  Lemma cell2_shift lhs rhs a b ps :
    map (cell2 f lhs rhs) (map (fun p => (a + fst p, b + snd p)) ps) = map (fun p => cell2 f lhs rhs (a + fst p, b + snd p)) ps.
  Proof. now rewrite map_map. Qed.

  Lemma combine_map2 (g1 g2 : nat -> nat) l1 : forall l2,
    combine (map g1 l1) (map g2 l2) = map (fun p => (g1 (fst p), g2 (snd p))) (combine l1 l2).
  Proof. induction l1 as [|x l1 IH]; intros [|y l2]; cbn [map combine]; auto. now rewrite IH. Qed.

  Lemma loop_shift h lhs rhs a b ps dst :
    loop h (map (cell2 f (src_add lhs a) (src_add rhs b)) ps) dst =
    loop h (map (cell2 f lhs rhs) (map (fun p => (a + fst p, b + snd p)) ps)) dst.
  Proof.
    apply loop_ext. induction ps as [|p ps IH]; constructor; auto.
    intros h0. unfold cell2. cbn [fst snd]. now rewrite !src_add_add.
  Qed.

  Lemma k_nn_loop count : forall h lhs ls rhs rs dst,
    k_nn f h lhs ls rhs rs dst count =
    loop h (map (cell2 f lhs rhs) (combine (strided count ls) (strided count rs))) dst.
  Proof.
    induction count as [|c IH]; intros h lhs ls rhs rs dst; [reflexivity|].
    rewrite !strided_S. cbn [k_nn combine map loop]. unfold cell2 at 1. cbn [fst snd]. rewrite !src_add_0, !bind_assoc.
    apply bind_ext. intros x _. rewrite !bind_assoc. apply bind_ext. intros y _. apply bind_ext. intros v _.
    apply bind_ext. intros h' _. rewrite IH, loop_shift. rewrite combine_map2. reflexivity.
  Qed.

  Lemma k_xn_go_loop count : forall h lhs is rhs rs dst, length is = count ->
    k_xn_go f h lhs is rhs rs dst count = loop h (map (cell2 f lhs rhs) (combine is (strided count rs))) dst.
  Proof.
    induction count as [|c IH]; intros h lhs [|i is] rhs rs dst L; cbn [length] in L; try discriminate; [reflexivity|].
    rewrite !strided_S. cbn [k_xn_go combine map loop]. unfold cell2 at 1. cbn [fst snd]. rewrite !src_add_0, !bind_assoc.
    apply bind_ext. intros x _. rewrite !bind_assoc. apply bind_ext. intros y _. apply bind_ext. intros v _.
    apply bind_ext. intros h' _. rewrite IH by lia. rewrite <- (src_add_0 lhs) at 1. rewrite loop_shift.
    f_equal. f_equal. rewrite <- (combine_map2 (Nat.add 0) (Nat.add rs)). f_equal. apply map_id.
  Qed.

  Lemma k_nx_go_loop count : forall h lhs ls rhs is dst, length is = count ->
    k_nx_go f h lhs ls rhs is dst count = loop h (map (cell2 f lhs rhs) (combine (strided count ls) is)) dst.
  Proof.
    induction count as [|c IH]; intros h lhs ls rhs [|i is] dst L; cbn [length] in L; try discriminate; [reflexivity|].
    rewrite !strided_S. cbn [k_nx_go combine map loop]. unfold cell2 at 1. cbn [fst snd]. rewrite !src_add_0, !bind_assoc.
    apply bind_ext. intros x _. rewrite !bind_assoc. apply bind_ext. intros y _. apply bind_ext. intros v _.
    apply bind_ext. intros h' _. rewrite IH by lia. rewrite <- (src_add_0 rhs) at 1. rewrite loop_shift.
    f_equal. f_equal. rewrite <- (combine_map2 (Nat.add ls) (Nat.add 0)). f_equal. apply map_id.
  Qed.

  Lemma k_xx_go_loop is : forall h lhs rhs js dst,
    k_xx_go f h lhs is rhs js dst = loop h (map (cell2 f lhs rhs) (combine is js)) dst.
  Proof.
    induction is as [|i is IH]; intros h lhs rhs [|j js] dst; try reflexivity.
    cbn [k_xx_go combine map loop]. unfold cell2 at 1. cbn [fst snd]. rewrite !bind_assoc.
    apply bind_ext. intros x _. rewrite !bind_assoc. apply bind_ext. intros y _. apply bind_ext. intros v _.
    apply bind_ext. intros h' _. apply IH.
  Qed.

  Lemma collapse_one sh st n s : length sh = length st -> collapse sh st = ([n], [s]) -> offsets sh st = strided n s.
  Proof.
    intros L E. apply collapse_offsets in E as (E & _ & _); [|exact L]. rewrite <- E.
    rewrite offsets_cons, offsets_nil. unfold strided. clear. induction (seq 0 n) as [|i l IH]; [reflexivity|].
    cbn [flat_map map app] in *. rewrite IH. f_equal. lia.
  Qed.

  Lemma len1 {A} (l : list A) : length l =? 1 = true -> exists x, l = [x].
  Proof. destruct l as [|x [|y l]]; cbn; try discriminate. eauto. Qed.

  (** the whole dispatch *)
  Lemma k_binary_loop h lhs ls rhs rs dst shape :
    length ls = length shape -> length rs = length shape -> length shape <= MAX_DIMS ->
    k_binary f h lhs ls rhs rs dst shape =
    loop h (map (cell2 f (Mem lhs) (Mem rhs)) (combine (offsets shape ls) (offsets shape rs))) dst.
  Proof.
    intros L1 L2 MD. unfold k_binary.
    destruct shape as [|n0 shape0].
    - destruct ls, rs; try discriminate. cbn [length Nat.eqb andb].
      cbn [offsets indices map combine dot loop]. unfold cell2. cbn [fst snd]. rewrite !src_add_0, !bind_assoc. cbn [src_ld].
      apply bind_ext. intros x _. rewrite !bind_assoc. apply bind_ext. intros y _. apply bind_ext. intros v _.
      destruct (st h dst v); reflexivity.
    - set (shape := n0 :: shape0) in *.
      assert (Z : (length ls =? 0) = false) by (rewrite L1; reflexivity). rewrite Z. cbn [andb]. clear Z.
      destruct (collapse shape ls) as [lsh lst] eqn:CL. destruct (collapse shape rs) as [rsh rst] eqn:CR.
      pose proof (collapse_offsets _ _ _ _ (eq_sym L1) CL) as (OL & LL & BL).
      pose proof (collapse_offsets _ _ _ _ (eq_sym L2) CR) as (OR & LR & BR).
      pose proof (collapse_prod _ _ _ _ (eq_sym L1) CL) as PL.
      pose proof (collapse_prod _ _ _ _ (eq_sym L2) CR) as PR.
      assert (NL : lsh <> []).
      { pose proof (collapse_nonempty shape ls (eq_sym L1)) as H. rewrite CL in H. apply H. discriminate. }
      assert (NR : rsh <> []).
      { pose proof (collapse_nonempty shape rs (eq_sym L2)) as H. rewrite CR in H. apply H. discriminate. }
      assert (LAST : forall l : list nat, l <> [] -> exists x, last_of l = Ok x /\ forall y, l = [y] -> x = y).
      { intros l NE. unfold last_of, csub. destruct l as [|y l]; [congruence|]. cbn [length].
        destruct (Nat.ltb_spec (S (length l)) 1); [lia|]. cbn [bind].
        exists (nth (S (length l) - 1) (y :: l) 0). split; [apply vget_nth; cbn [length]; lia|].
        intros z E. injection E as -> ->. reflexivity. }
      destruct (LAST lst) as (li & -> & ELI). { destruct lst; [destruct lsh; [congruence|discriminate]|discriminate]. }
      destruct (LAST rst) as (ri & -> & ERI). { destruct rst; [destruct rsh; [congruence|discriminate]|discriminate]. }
      cbn [bind]. clear LAST.
      destruct lsh as [|ln lsh']; [congruence|]. destruct rsh as [|rn rsh']; [congruence|]. cbn [vget nth_error bind].
      set (ld1 := length (ln :: lsh') =? 1). set (rd1 := length (rn :: rsh') =? 1).
      assert (D1 : ld1 = true -> offsets shape ls = strided ln li /\ ln = prod shape).
      { intros E. destruct lsh' as [|]; [|discriminate E]. destruct lst as [|s [|]]; try discriminate LL.
        specialize (ELI s eq_refl). subst li. split; [now apply collapse_one|]. rewrite <- PL. cbn. lia. }
      assert (D2 : rd1 = true -> offsets shape rs = strided rn ri /\ rn = prod shape).
      { intros E. destruct rsh' as [|]; [|discriminate E]. destruct rst as [|s [|]]; try discriminate LR.
        specialize (ERI s eq_refl). subst ri. split; [now apply collapse_one|]. rewrite <- PR. cbn. lia. }
      assert (GL : fig_list (ln :: lsh') lst = Ok (offsets shape ls)).
      { rewrite <- OL. apply fig_list_ok'; lia. }
      assert (GR : fig_list (rn :: rsh') rst = Ok (offsets shape rs)).
      { rewrite <- OR. apply fig_list_ok'; lia. }
      assert (NNL : ld1 = true -> rd1 = true -> forall a b, a = li -> b = ri ->
        k_nn f h (Mem lhs) a (Mem rhs) b dst ln =
        loop h (map (cell2 f (Mem lhs) (Mem rhs)) (combine (offsets shape ls) (offsets shape rs))) dst).
      { intros E1 E2 a b -> ->. destruct (D1 E1) as [-> P1], (D2 E2) as [-> P2]. rewrite k_nn_loop.
        now replace rn with ln by congruence. }
      assert (NNR : ld1 = true -> rd1 = true -> forall a b, a = li -> b = ri ->
        k_nn f h (Mem lhs) a (Mem rhs) b dst rn =
        loop h (map (cell2 f (Mem lhs) (Mem rhs)) (combine (offsets shape ls) (offsets shape rs))) dst).
      { intros E1 E2 a b -> ->. destruct (D1 E1) as [-> P1], (D2 E2) as [-> P2]. rewrite k_nn_loop.
        now replace rn with ln by congruence. }
      assert (XN : rd1 = true -> forall b, b = ri -> 
        k_xn f h (Mem lhs) (ln :: lsh') lst (Mem rhs) b dst rn =
        loop h (map (cell2 f (Mem lhs) (Mem rhs)) (combine (offsets shape ls) (offsets shape rs))) dst).
      { intros E b ->. destruct (D2 E) as [O P]. unfold k_xn. rewrite GL. cbn [bind].
        rewrite k_xn_go_loop; [now rewrite O|]. now rewrite offsets_length. }
      assert (NX : ld1 = true -> forall a, a = li -> 
        k_nx f h (Mem lhs) a (Mem rhs) (rn :: rsh') rst dst ln =
        loop h (map (cell2 f (Mem lhs) (Mem rhs)) (combine (offsets shape ls) (offsets shape rs))) dst).
      { intros E a ->. destruct (D1 E) as [O P]. unfold k_nx. rewrite GR. cbn [bind].
        rewrite k_nx_go_loop; [now rewrite O|]. now rewrite offsets_length. }
      assert (XX : k_xx f h (Mem lhs) (ln :: lsh') lst (Mem rhs) (rn :: rsh') rst dst =
        loop h (map (cell2 f (Mem lhs) (Mem rhs)) (combine (offsets shape ls) (offsets shape rs))) dst).
      { unfold k_xx. rewrite GL, GR. cbn [bind]. apply k_xx_go_loop. }
      clearbody ld1 rd1.
      destruct ld1 eqn:E1, rd1 eqn:E2; cbn [andb];
        destruct (Nat.eqb_spec li 1), (Nat.eqb_spec ri 1), (Nat.eqb_spec li 0), (Nat.eqb_spec ri 0); cbn [andb];
        try lia; first [apply NNL|apply NNR|apply XN|apply NX|apply XX]; auto.
  Qed.

  Lemma k_scalar_loop h lhs lsh ls c dst :
    length ls = length lsh -> length lsh <= MAX_DIMS ->
    k_scalar f h lhs lsh ls c dst =
    loop h (map (fun o h => x <- ld h (padd lhs o) ;; f x c) (offsets lsh ls)) dst.
  Proof.
    intros L MD. unfold k_scalar.
    assert (G : forall h rs, loop h (map (cell2 f (Mem lhs) (Val c)) (combine (offsets lsh ls) rs)) dst = 
       loop h (map (fun o h => x <- ld h (padd lhs o) ;; f x c) (firstn (length rs) (offsets lsh ls))) dst).
    { intros h0 rs. apply loop_ext. generalize (offsets lsh ls). intros l. revert rs; induction l as [|o l IH]; intros [|r rs];
        cbn [combine map firstn length]; constructor; auto. }
    assert (FN : forall s, firstn (length (strided (prod lsh) s)) (offsets lsh ls) = offsets lsh ls).
    { intros s. apply firstn_all2. rewrite strided_length, offsets_length. lia. }
    destruct ls as [|s ls'].
    - destruct lsh; [|discriminate]. cbn [offsets indices map dot loop].
      replace (padd lhs 0) with lhs by (destruct lhs; unfold padd; cbn; f_equal; lia). rewrite !bind_assoc.
      apply bind_ext. intros x _. apply bind_ext. intros v _. destruct (st h dst v); reflexivity.
    - destruct (collapse lsh (s :: ls')) as [sh str] eqn:C.
      pose proof (collapse_offsets _ _ _ _ (eq_sym L) C) as (O & LL & B).
      pose proof (collapse_prod _ _ _ _ (eq_sym L) C) as P.
      assert (NE : sh <> []).
      { pose proof (collapse_nonempty lsh (s :: ls') (eq_sym L)) as H. rewrite C in H. apply H. destruct lsh; discriminate. }
      destruct (length sh =? 1) eqn:E1.
      + apply len1 in E1 as (n & ->). destruct str as [|s1 [|]]; try discriminate LL.
        unfold last_of, csub. cbn [length Nat.ltb Nat.leb Nat.sub bind vget nth_error].
        assert (n = prod lsh) by (rewrite <- P; cbn; lia). subst n.
        pose proof (collapse_one _ _ _ _ (eq_sym L) C) as OS.
        destruct (Nat.eqb_spec s1 1) as [->|]; rewrite k_nn_loop; rewrite <- OS, G, FN; reflexivity.
      + assert (exists i, last_of str = Ok i) as (i & ->).
        { unfold last_of, csub. destruct str as [|y l]; [destruct sh; [congruence|discriminate]|]. cbn [length].
          destruct (Nat.ltb_spec (S (length l)) 1); [lia|]. cbn [bind]. eexists. apply (@vget_nth _ _ _ 0). cbn [length]; lia. }
        cbn [bind]. unfold k_xn. rewrite fig_list_ok' by lia. cbn [bind]. rewrite O.
        rewrite k_xn_go_loop by (rewrite offsets_length; auto). rewrite P, G, FN. reflexivity.
  Qed.

  (** loop into a fresh block *)
  Lemma loop_fresh (ops : list (heap T -> res T)) : forall (h : heap T) done junk,
    length junk = length ops ->
    (forall o, In o ops -> forall l, o (h ++ [Some l]) = o h) ->
    loop (h ++ [Some (done ++ junk)]) ops (length h, length done) =
    (vs <- mapM (fun o => o h) ops ;; Ok (h ++ [Some (done ++ vs)])).
  Proof.
    induction ops as [|o ops IH]; intros h done [|j junk] L I; cbn [length] in L; try discriminate.
    - cbn [loop mapM bind]. reflexivity.
    - cbn [loop mapM]. rewrite I by (cbn; auto). rewrite !bind_assoc. apply bind_ext. intros v _.
      unfold st. cbn [fst snd]. rewrite store_fresh. cbn [bind].
      replace (done ++ v :: junk) with ((done ++ [v]) ++ junk) by now rewrite <- app_assoc.
      unfold padd. cbn [fst snd].
      replace (length done + 1) with (length (done ++ [v])) by (rewrite app_length; cbn; lia).
      rewrite IH; [|lia|intros o' Ho l; apply I; cbn; auto].
      rewrite !bind_assoc. apply bind_ext. intros vs _. cbn [bind]. now rewrite <- app_assoc.
  Qed.
End Loop.

Section Unary.
  Context {T : Type}.
  Variable g : T -> res T.

  Lemma k_un_loop count : forall h op s dst,
    k_un g h op s dst count = loop h (map (fun o h => x <- ld h (padd op o) ;; g x) (strided count s)) dst.
  Proof.
    induction count as [|c IH]; intros h op s dst; [reflexivity|].
    rewrite strided_S. cbn [k_un map loop]. replace (padd op 0) with op by (destruct op; unfold padd; cbn; f_equal; lia).
    rewrite !bind_assoc. apply bind_ext. intros x _. apply bind_ext. intros v _. apply bind_ext. intros h' _.
    rewrite IH. apply loop_ext. rewrite map_map. induction (strided c s) as [|k l IHl]; constructor; auto.
    intros h0. destruct op; unfold padd; cbn [fst snd]. now rewrite Nat.add_assoc.
  Qed.

  Lemma k_ux_go_loop is : forall h op dst,
    k_ux_go g h op is dst = loop h (map (fun o h => x <- ld h (padd op o) ;; g x) is) dst.
  Proof.
    induction is as [|i is IH]; intros h op dst; [reflexivity|]. cbn [k_ux_go map loop].
    rewrite !bind_assoc. apply bind_ext. intros x _. apply bind_ext. intros v _. apply bind_ext. intros h' _. apply IH.
  Qed.

  Lemma k_unary_loop h op shape stride dst :
    length stride = length shape -> length shape <= MAX_DIMS ->
    k_unary g h op shape stride dst = loop h (map (fun o h => x <- ld h (padd op o) ;; g x) (offsets shape stride)) dst.
  Proof.
    intros L MD. unfold k_unary. destruct shape as [|n0 sh0].
    - destruct stride; [|discriminate]. cbn [offsets indices map dot loop].
      replace (padd op 0) with op by (destruct op; unfold padd; cbn; f_equal; lia). rewrite !bind_assoc.
      apply bind_ext. intros x _. apply bind_ext. intros v _. destruct (st h dst v); reflexivity.
    - set (shape := n0 :: sh0) in *. destruct (collapse shape stride) as [sh str] eqn:C.
      pose proof (collapse_offsets _ _ _ _ (eq_sym L) C) as (O & LL & B).
      destruct (length sh =? 1) eqn:E1.
      + apply len1 in E1 as (n & ->). destruct str as [|s [|]]; try discriminate LL.
        cbn [vget nth_error bind]. pose proof (collapse_one _ _ _ _ (eq_sym L) C) as ->.
        destruct (Nat.eqb_spec s 0) as [->|]; [apply k_un_loop|].
        destruct (Nat.eqb_spec s 1) as [->|]; apply k_un_loop.
      + rewrite fig_list_ok' by lia. cbn [bind]. rewrite O. apply k_ux_go_loop.
  Qed.
End Unary.
