(** PointersFacts.v: a loop with checked moves gives the result of the loop with checked
    accesses, except that it may fail at the last move. *)
From Coq Require Import List Arith Lia Bool ZArith.
From Verif Require Import Base Spec Layout SpecFacts LayoutFacts Views Kernels Access HeapFacts KernelFacts OpFacts Reduce Einsum Iter Pointers.
Import ListNotations.
Open Scope res_scope.

(** the length of an allocation *)
Definition size {T} (h : heap T) (b : nat) : option nat :=
  match nth_error h b with Some (Some l) => Some (length l) | _ => None end.
(** n moves by s from p end inside the allocation or one past its end *)
Definition lim {T} (h : heap T) (p : ptr) (s n : nat) : bool :=
  (s =? 0) || (n =? 0) || match size h (fst p) with Some m => snd p + n * s <=? m | None => false end.
Definition slim {T} (h : heap T) (p : src T) (s n : nat) : bool :=
  match p with Mem p => lim h p s n | Val _ => true end.
(** the outcome of a loop that fails at its last move unless b *)
Definition cut {A} (b : bool) (r : res A) : res A := match r with Ok x => if b then Ok x else Oob | e => e end.

Lemma cut_true {A} (r : res A) : cut true r = r.
Proof. destruct r; reflexivity. Qed.
Lemma padd0 p : padd p 0 = p.
Proof. destruct p. unfold padd. cbn. now rewrite Nat.add_0_r. Qed.

Section Facts.
  Context {T : Type}.
  Implicit Types (h : heap T) (p : ptr).

  Lemma move_size h p n : move h p n = if (n =? 0) || match size h (fst p) with Some m => snd p + n <=? m | None => false end then Ok (padd p n) else Oob.
  Proof.
    unfold move, size. destruct (Nat.eqb_spec n 0) as [->|]; cbn [orb]; [now rewrite padd0|].
    destruct (nth_error h (fst p)) as [[l|]|]; reflexivity.
  Qed.
  Lemma move_lim h p n : move h p n = if lim h p n 1 then Ok (padd p n) else Oob.
  Proof. rewrite move_size. unfold lim. cbn [Nat.eqb orb]. rewrite orb_false_r, Nat.mul_1_l. reflexivity. Qed.
  Lemma src_move_lim h s n : src_move h s n = if slim h s n 1 then Ok (src_add s n) else Oob.
  Proof. destruct s as [p|v]; cbn [src_move slim src_add]; [|reflexivity]. rewrite move_lim. now destruct (lim h p n 1). Qed.
  Lemma ld_size h p x : ld h p = Ok x -> exists m, size h (fst p) = Some m /\ snd p < m.
  Proof.
    unfold ld, load, size. destruct (nth_error h (fst p)) as [[l|]|]; try discriminate. destruct (nth_error l (snd p)) eqn:E; [|discriminate].
    intros _. exists (length l). split; [reflexivity|]. apply nth_error_Some. congruence.
  Qed.
  Lemma ld_lim h p s x : ld h (padd p s) = Ok x -> lim h p s 1 = true.
  Proof.
    intros E. destruct (ld_size _ _ _ E) as (m & S & L). cbn [padd fst snd] in *. unfold lim. rewrite S. rewrite Nat.mul_1_l.
    destruct (Nat.eqb_spec s 0); cbn [orb]; [reflexivity|]. apply Nat.leb_le. lia.
  Qed.
  Lemma ld_next h p x : ld h p = Ok x -> move h p 1 = Ok (padd p 1).
  Proof. intros E. destruct (ld_size _ _ _ E) as (m & S & L). rewrite move_size, S. cbn [Nat.eqb orb]. destruct (Nat.leb_spec (snd p + 1) m); [reflexivity|lia]. Qed.
  Lemma sld_lim h (p : src T) s x : src_ld h (src_add p s) = Ok x -> slim h p s 1 = true.
  Proof. destruct p as [p|v]; cbn [src_ld src_add slim]; [apply ld_lim|reflexivity]. Qed.
  Lemma sld_not_panic h (p : src T) : src_ld h p <> Panic.
  Proof. destruct p; cbn [src_ld]; [apply load_not_panic|discriminate]. Qed.

  Lemma upd_len {A} (l l' : list A) i v : upd l i v = Some l' -> length l' = length l.
  Proof.
    revert i l'; induction l as [|x l IH]; intros [|i] l'; cbn [upd]; try discriminate; [intros [= <-]; reflexivity|].
    destruct (upd l i v) eqn:E; [|discriminate]. intros [= <-]. cbn [length]. f_equal. eauto.
  Qed.
  Lemma upd_get {A} (l l' : list A) i v j : upd l i v = Some l' -> nth_error l' j = if j =? i then Some v else nth_error l j.
  Proof.
    revert i j l'; induction l as [|x l IH]; intros [|i] j l'; cbn [upd]; try discriminate; [intros [= <-]; destruct j; reflexivity|].
    destruct (upd l i v) eqn:E; [|discriminate]. intros [= <-]. destruct j; cbn [nth_error Nat.eqb]; [reflexivity|]. eauto.
  Qed.
  Lemma st_size h p v h' : st h p v = Ok h' -> forall b, size h' b = size h b.
  Proof.
    unfold st, store. destruct (nth_error h (fst p)) as [[l|]|] eqn:E; try discriminate. destruct (upd l (snd p) v) as [l'|] eqn:U; [|discriminate].
    destruct (upd h (fst p) (Some l')) as [h2|] eqn:U2; [|discriminate]. intros [= <-] b. unfold size. rewrite (upd_get _ _ _ _ _ U2).
    destruct (Nat.eqb_spec b (fst p)) as [->|]; [|reflexivity]. rewrite E. f_equal. eapply upd_len; eauto.
  Qed.
  Lemma st_not_panic h p v : st h p v <> Panic.
  Proof. apply store_not_panic. Qed.
  Lemma st_next h p v h' : st h p v = Ok h' -> move h' p 1 = Ok (padd p 1).
  Proof.
    intros E. pose proof (st_size _ _ _ _ E (fst p)) as S. destruct (store_load_ok _ _ _ _ _ E) as (x & L). change (ld h p = Ok x) in L.
    destruct (ld_size _ _ _ L) as (m & S2 & LT). rewrite move_size, S, S2. cbn [Nat.eqb orb]. destruct (Nat.leb_spec (snd p + 1) m); [reflexivity|lia].
  Qed.
  Lemma lim_size h h' p s n : (forall b, size h' b = size h b) -> lim h' p s n = lim h p s n.
  Proof. intros E. unfold lim. now rewrite E. Qed.
  Lemma slim_size h h' (p : src T) s n : (forall b, size h' b = size h b) -> slim h' p s n = slim h p s n.
  Proof. destruct p; cbn [slim]; [apply lim_size|reflexivity]. Qed.
  Lemma lim_step h p s n : lim h (padd p s) s (S n) = lim h p s (S (S n)).
  Proof. unfold lim. cbn [padd fst snd Nat.eqb]. replace (snd p + s + S n * s) with (snd p + S (S n) * s) by lia. reflexivity. Qed.
  Lemma slim_step h (p : src T) s n : slim h (src_add p s) s (S n) = slim h p s (S (S n)).
  Proof. destruct p; cbn [slim src_add]; [apply lim_step|reflexivity]. Qed.
  Lemma slim0 h (p : src T) s : slim h p s 0 = true.
  Proof. destruct p as [p|v]; cbn [slim]; [|reflexivity]. unfold lim. destruct (s =? 0); reflexivity. Qed.
  Lemma lim0 h p s : lim h p s 0 = true.
  Proof. unfold lim. destruct (s =? 0); reflexivity. Qed.
  Lemma lim_zero h p n : lim h p 0 n = true.
  Proof. reflexivity. Qed.

  Ltac step := match goal with |- context [bind ?m _] => destruct m eqn:?; cbn [bind cut]; try reflexivity end.

  Section Bin.
    Variable f : T -> T -> res T.

    Lemma p_nn_cut count : forall h lhs ls rhs rs dst,
      p_nn f h lhs ls rhs rs dst count = cut (slim h lhs ls count && slim h rhs rs count) (k_nn f h lhs ls rhs rs dst count).
    Proof.
      induction count as [|c IH]; intros h lhs ls rhs rs dst; cbn [p_nn k_nn]; [now rewrite !slim0|].
      destruct (src_ld h lhs) as [x| |] eqn:EL; cbn [bind cut]; try reflexivity. destruct (src_ld h rhs) as [y| |] eqn:ER; cbn [bind cut]; try reflexivity.
      destruct (f x y) as [v| |]; cbn [bind cut]; try reflexivity. destruct (st h dst v) as [h'| |] eqn:ES; cbn [bind cut]; try reflexivity.
      pose proof (st_size _ _ _ _ ES) as SZ. rewrite <- (slim_size h h' lhs), <- (slim_size h h' rhs) by exact SZ.
      rewrite !src_move_lim, (st_next _ _ _ _ ES). destruct c as [|c].
      - cbn [k_nn cut p_nn]. destruct (slim h' lhs ls 1), (slim h' rhs rs 1); reflexivity.
      - rewrite <- !slim_step.
        destruct (src_ld h' (src_add lhs ls)) as [x1| |] eqn:E1; [|exfalso; eapply sld_not_panic; eauto|].
        + rewrite (sld_lim _ _ _ _ E1). cbn [bind].
          destruct (src_ld h' (src_add rhs rs)) as [y1| |] eqn:E2; [|exfalso; eapply sld_not_panic; eauto|].
          * rewrite (sld_lim _ _ _ _ E2). cbn [bind]. apply IH.
          * transitivity (@Oob (heap T)); [|cbn [k_nn]; rewrite E1, E2; reflexivity].
            destruct (slim h' rhs rs 1); cbn [bind]; [|reflexivity]. rewrite IH. cbn [k_nn]. rewrite E1, E2. reflexivity.
        + transitivity (@Oob (heap T)); [|cbn [k_nn]; rewrite E1; reflexivity].
          destruct (slim h' lhs ls 1); cbn [bind]; [|reflexivity]. destruct (slim h' rhs rs 1); cbn [bind]; [|reflexivity].
          rewrite IH. cbn [k_nn]. rewrite E1. reflexivity.
    Qed.

    Lemma p_xn_cut count : forall h lhs is rhs rs dst,
      p_xn_go f h lhs is rhs rs dst count = cut (slim h rhs rs count) (k_xn_go f h lhs is rhs rs dst count).
    Proof.
      induction count as [|c IH]; intros h lhs is rhs rs dst; [destruct is; cbn [p_xn_go k_xn_go cut]; now rewrite slim0|].
      destruct is as [|i is]; [reflexivity|]. cbn [p_xn_go k_xn_go].
      destruct (src_ld h (src_add lhs i)) as [x| |] eqn:EL; cbn [bind cut]; try reflexivity. destruct (src_ld h rhs) as [y| |] eqn:ER; cbn [bind cut]; try reflexivity.
      destruct (f x y) as [v| |]; cbn [bind cut]; try reflexivity. destruct (st h dst v) as [h'| |] eqn:ES; cbn [bind cut]; try reflexivity.
      pose proof (st_size _ _ _ _ ES) as SZ. rewrite <- (slim_size h h' rhs) by exact SZ.
      rewrite !src_move_lim, (st_next _ _ _ _ ES). cbn [bind]. destruct c as [|c].
      - destruct is; cbn [k_xn_go cut p_xn_go]; destruct (slim h' rhs rs 1); reflexivity.
      - rewrite <- !slim_step.
        destruct (src_ld h' (src_add rhs rs)) as [y1| |] eqn:E2; [|exfalso; eapply sld_not_panic; eauto|].
        + rewrite (sld_lim _ _ _ _ E2). cbn [bind]. apply IH.
        + assert (K : k_xn_go f h' lhs is (src_add rhs rs) rs (padd dst 1) (S c) = Oob).
          { destruct is as [|j is]; [reflexivity|]. cbn [k_xn_go]. destruct (src_ld h' (src_add lhs j)) eqn:EJ; cbn [bind]; [now rewrite E2|exfalso; eapply sld_not_panic; eauto|reflexivity]. }
          rewrite K. destruct (slim h' rhs rs 1); cbn [bind]; [|reflexivity]. rewrite IH, K. reflexivity.
    Qed.

    Lemma p_nx_cut count : forall h lhs ls rhs is dst,
      p_nx_go f h lhs ls rhs is dst count = cut (slim h lhs ls count) (k_nx_go f h lhs ls rhs is dst count).
    Proof.
      induction count as [|c IH]; intros h lhs ls rhs is dst; [destruct is; cbn [p_nx_go k_nx_go cut]; now rewrite slim0|].
      destruct is as [|i is]; [reflexivity|]. cbn [p_nx_go k_nx_go].
      destruct (src_ld h lhs) as [x| |] eqn:EL; cbn [bind cut]; try reflexivity. destruct (src_ld h (src_add rhs i)) as [y| |] eqn:ER; cbn [bind cut]; try reflexivity.
      destruct (f x y) as [v| |]; cbn [bind cut]; try reflexivity. destruct (st h dst v) as [h'| |] eqn:ES; cbn [bind cut]; try reflexivity.
      pose proof (st_size _ _ _ _ ES) as SZ. rewrite <- (slim_size h h' lhs) by exact SZ.
      rewrite !src_move_lim, (st_next _ _ _ _ ES). cbn [bind]. destruct c as [|c].
      - destruct is; cbn [k_nx_go cut p_nx_go]; destruct (slim h' lhs ls 1); reflexivity.
      - rewrite <- !slim_step.
        destruct (src_ld h' (src_add lhs ls)) as [y1| |] eqn:E2; [|exfalso; eapply sld_not_panic; eauto|].
        + rewrite (sld_lim _ _ _ _ E2). cbn [bind]. apply IH.
        + assert (K : k_nx_go f h' (src_add lhs ls) ls rhs is (padd dst 1) (S c) = Oob).
          { destruct is as [|j is]; [reflexivity|]. cbn [k_nx_go]. now rewrite E2. }
          rewrite K. destruct (slim h' lhs ls 1); cbn [bind]; [|reflexivity]. rewrite IH, K. reflexivity.
    Qed.

    Lemma p_xx_eq is : forall h lhs rhs js dst, p_xx_go f h lhs is rhs js dst = k_xx_go f h lhs is rhs js dst.
    Proof.
      induction is as [|i is IH]; intros h lhs rhs [|j js] dst; cbn [p_xx_go k_xx_go]; try reflexivity.
      destruct (src_ld h (src_add lhs i)) as [x| |]; cbn [bind]; try reflexivity. destruct (src_ld h (src_add rhs j)) as [y| |]; cbn [bind]; try reflexivity.
      destruct (f x y) as [v| |]; cbn [bind]; try reflexivity. destruct (st h dst v) as [h'| |] eqn:ES; cbn [bind]; try reflexivity.
      rewrite (st_next _ _ _ _ ES). cbn [bind]. apply IH.
    Qed.
  End Bin.

  Section Un.
    Variable g : T -> res T.
    Lemma p_un_cut count : forall h p s dst, p_un g h p s dst count = cut (lim h p s count) (k_un g h p s dst count).
    Proof.
      induction count as [|c IH]; intros h p s dst; cbn [p_un k_un]; [now rewrite lim0|].
      destruct (ld h p) as [x| |] eqn:EL; cbn [bind cut]; try reflexivity. destruct (g x) as [v| |]; cbn [bind cut]; try reflexivity.
      destruct (st h dst v) as [h'| |] eqn:ES; cbn [bind cut]; try reflexivity. pose proof (st_size _ _ _ _ ES) as SZ.
      rewrite <- (lim_size h h' p) by exact SZ. rewrite move_lim, (st_next _ _ _ _ ES). destruct c as [|c].
      - cbn [k_un cut p_un]. destruct (lim h' p s 1); reflexivity.
      - rewrite <- lim_step. destruct (ld h' (padd p s)) as [x1| |] eqn:E1; [|exfalso; eapply load_not_panic; eauto|].
        + rewrite (ld_lim _ _ _ _ E1). cbn [bind]. apply IH.
        + transitivity (@Oob (heap T)); [|cbn [k_un]; rewrite E1; reflexivity]. destruct (lim h' p s 1); cbn [bind]; [|reflexivity].
          rewrite IH. cbn [k_un]. rewrite E1. reflexivity.
    Qed.
    Lemma p_ux_eq is : forall h p dst, p_ux_go g h p is dst = k_ux_go g h p is dst.
    Proof.
      induction is as [|i is IH]; intros h p dst; cbn [p_ux_go k_ux_go]; [reflexivity|].
      destruct (ld h (padd p i)) as [x| |]; cbn [bind]; try reflexivity. destruct (g x) as [v| |]; cbn [bind]; try reflexivity.
      destruct (st h dst v) as [h'| |] eqn:ES; cbn [bind]; try reflexivity. rewrite (st_next _ _ _ _ ES). cbn [bind]. apply IH.
    Qed.
  End Un.

  Lemma p_fold_cut (g : T -> T -> res T) count : forall h p s acc, p_fold_run g h p count s acc = cut (lim h p s count) (fold_run g h p count s acc).
  Proof.
    induction count as [|c IH]; intros h p s acc; cbn [p_fold_run fold_run]; [now rewrite lim0|].
    destruct (ld h p) as [x| |] eqn:EL; cbn [bind cut]; try reflexivity. destruct (g x acc) as [v| |]; cbn [bind cut]; try reflexivity.
    rewrite move_lim. destruct c as [|c]; [cbn [fold_run cut p_fold_run]; destruct (lim h p s 1); reflexivity|].
    rewrite <- lim_step. destruct (ld h (padd p s)) as [x1| |] eqn:E1; [|exfalso; eapply load_not_panic; eauto|].
    - rewrite (ld_lim _ _ _ _ E1). cbn [bind]. apply IH.
    - transitivity (@Oob T); [|cbn [fold_run]; rewrite E1; reflexivity]. destruct (lim h p s 1); cbn [bind]; [|reflexivity].
      rewrite IH. cbn [fold_run]. rewrite E1. reflexivity.
  Qed.

  Lemma p_fill_uniform_cut count : forall h p s v, p_fill_uniform h p count s v = cut (lim h p s count) (fill_uniform h p count s v).
  Proof.
    induction count as [|c IH]; intros h p s v; cbn [p_fill_uniform fill_uniform]; [now rewrite lim0|].
    destruct (st h p v) as [h'| |] eqn:ES; cbn [bind cut]; try reflexivity. pose proof (st_size _ _ _ _ ES) as SZ.
    rewrite <- (lim_size h h' p) by exact SZ. rewrite move_lim. destruct c as [|c]; [cbn [fill_uniform cut p_fill_uniform]; destruct (lim h' p s 1); reflexivity|].
    rewrite <- lim_step. destruct (st h' (padd p s) v) as [h2| |] eqn:E1; [|exfalso; eapply store_not_panic; eauto|].
    - destruct (store_load_ok _ _ _ _ _ E1) as (x & E2). change (ld h' (padd p s) = Ok x) in E2. rewrite (ld_lim _ _ _ _ E2). cbn [bind]. apply IH.
    - transitivity (@Oob (heap T)); [|cbn [fill_uniform]; rewrite E1; reflexivity]. destruct (lim h' p s 1); cbn [bind]; [|reflexivity].
      rewrite IH. cbn [fill_uniform]. rewrite E1. reflexivity.
  Qed.

  Section Dot.
    Variable zero : T.
    Variable add mul : T -> T -> res T.
    Variable fma : T -> T -> T -> res T.
    Lemma p_dot_cut count : forall h p0 s0 p1 s1 acc,
      p_dot_go add mul h p0 s0 p1 s1 count acc = cut (lim h p0 s0 count && lim h p1 s1 count) (dot_go add mul h p0 s0 p1 s1 count acc).
    Proof.
      induction count as [|c IH]; intros h p0 s0 p1 s1 acc; cbn [p_dot_go dot_go]; [now rewrite !lim0|].
      destruct (ld h p0) as [x| |] eqn:EL; cbn [bind cut]; try reflexivity. destruct (ld h p1) as [y| |] eqn:ER; cbn [bind cut]; try reflexivity.
      destruct (mul x y) as [v| |]; cbn [bind cut]; try reflexivity. destruct (add acc v) as [s| |]; cbn [bind cut]; try reflexivity.
      rewrite !move_lim. destruct c as [|c]; [cbn [dot_go cut p_dot_go]; destruct (lim h p0 s0 1), (lim h p1 s1 1); reflexivity|].
      rewrite <- !lim_step. destruct (ld h (padd p0 s0)) as [x1| |] eqn:E1; [|exfalso; eapply load_not_panic; eauto|].
      - rewrite (ld_lim _ _ _ _ E1). cbn [bind].
        destruct (ld h (padd p1 s1)) as [y1| |] eqn:E2; [|exfalso; eapply load_not_panic; eauto|].
        + rewrite (ld_lim _ _ _ _ E2). cbn [bind]. apply IH.
        + transitivity (@Oob T); [|cbn [dot_go]; rewrite E1, E2; reflexivity].
          destruct (lim h p1 s1 1); cbn [bind]; [|reflexivity]. rewrite IH. cbn [dot_go]. rewrite E1, E2. reflexivity.
      - transitivity (@Oob T); [|cbn [dot_go]; rewrite E1; reflexivity].
        destruct (lim h p0 s0 1); cbn [bind]; [|reflexivity]. destruct (lim h p1 s1 1); cbn [bind]; [|reflexivity].
        rewrite IH. cbn [dot_go]. rewrite E1. reflexivity.
    Qed.
    Lemma add_to_size h p v h' : add_to add h p v = Ok h' -> forall b, size h' b = size h b.
    Proof. unfold add_to. destruct (ld h p) as [x| |]; cbn [bind]; try discriminate. destruct (add x v) as [y| |]; cbn [bind]; try discriminate. apply st_size. Qed.
    Lemma add_to_next h p v h' : add_to add h p v = Ok h' -> move h' p 1 = Ok (padd p 1).
    Proof. unfold add_to. destruct (ld h p) as [x| |]; cbn [bind]; try discriminate. destruct (add x v) as [y| |]; cbn [bind]; try discriminate. apply st_next. Qed.
    Lemma move_1_size h h' p : (forall b, size h' b = size h b) -> move h' p 1 = move h p 1.
    Proof. intros E. now rewrite !move_size, E. Qed.
    Lemma p_muladd_eq count : forall h c data dst, p_muladd_go fma h c data dst count = muladd_go fma h c data dst count.
    Proof.
      induction count as [|n IH]; intros h c data dst; cbn [p_muladd_go muladd_go]; [reflexivity|].
      destruct (ld h data) as [x| |] eqn:EL; cbn [bind]; try reflexivity. destruct (ld h dst) as [y| |]; cbn [bind]; try reflexivity.
      destruct (fma c x y) as [v| |]; cbn [bind]; try reflexivity. destruct (st h dst v) as [h'| |] eqn:ES; cbn [bind]; try reflexivity.
      rewrite (st_next _ _ _ _ ES). cbn [bind]. rewrite (move_1_size h h' data) by (eapply st_size; eauto). rewrite (ld_next _ _ _ EL). cbn [bind]. apply IH.
    Qed.
    Lemma p_111_eq count : forall h p0 p1 dst, p_111_go add mul h p0 p1 dst count = sop_111_go add mul h p0 p1 dst count.
    Proof.
      induction count as [|n IH]; intros h p0 p1 dst; cbn [p_111_go sop_111_go]; [reflexivity|].
      destruct (ld h p0) as [x| |] eqn:E0; cbn [bind]; try reflexivity. destruct (ld h p1) as [y| |] eqn:E1; cbn [bind]; try reflexivity.
      destruct (mul x y) as [v| |]; cbn [bind]; try reflexivity. destruct (add_to add h dst v) as [h'| |] eqn:ES; cbn [bind]; try reflexivity.
      rewrite (add_to_next _ _ _ _ ES). cbn [bind]. rewrite !(move_1_size h h') by (eapply add_to_size; eauto).
      rewrite (ld_next _ _ _ E0), (ld_next _ _ _ E1). cbn [bind]. apply IH.
    Qed.
  End Dot.
End Facts.

Lemma nth0_size_snoc {T} (h : heap T) b n l : size h b = Some n -> size (h ++ [l]) b = Some n.
Proof. unfold size. intros E. destruct (nth_error h b) eqn:N; [|discriminate]. rewrite nth_error_app1; [now rewrite N|]. apply nth_error_Some. congruence. Qed.

(** As [cut], but a loop that panics later may fail before it panics. *)
Definition early {A} (b : bool) (plain strict : res A) : Prop :=
  match plain with Ok x => strict = if b then Ok x else Oob | Panic => strict = Panic \/ b = false /\ strict = Oob | Oob => strict = Oob end.
Lemma early_oob {A} (r : res A) : early false r Oob.
Proof. destruct r; cbn; auto. Qed.
Lemma early_refl {A} (r : res A) : early true r r.
Proof. destruct r; cbn; auto. Qed.

Lemma forallb_seq_next (f : nat -> bool) n : forall a, forallb f (seq (S a) n) = forallb (fun j => f (S j)) (seq a n).
Proof. induction n as [|n IH]; intros a; cbn [seq forallb]; [reflexivity|]. now rewrite IH. Qed.
Lemma forallb_same {A} (f g : A -> bool) l : (forall x, f x = g x) -> forallb f l = forallb g l.
Proof. intros E. induction l as [|x l IH]; cbn [forallb]; [reflexivity|]. now rewrite E, IH. Qed.

Section Loops.
  Context {T : Type}.
  Implicit Types (h : heap T) (p : ptr).

  Lemma lim_false_more h p s n m : lim h p s n = false -> n <= m -> lim h p s m = false.
  Proof.
    unfold lim. intros E L. apply orb_false_iff in E as [E E2]. apply orb_false_iff in E as [E E1]. rewrite E. apply Nat.eqb_neq in E, E1.
    destruct (Nat.eqb_spec m 0); [lia|]. cbn [orb]. destruct (size h (fst p)) as [k|]; [|reflexivity]. apply Nat.leb_gt in E2. apply Nat.leb_gt. nia.
  Qed.
  Lemma lim_false_far h p s n d : lim h p s n = false -> lim h (padd p d) s n = false.
  Proof.
    unfold lim. intros E. apply orb_false_iff in E as [E E2]. rewrite E. cbn [orb padd fst snd]. destruct (size h (fst p)) as [k|]; [|reflexivity].
    apply Nat.leb_gt in E2. apply Nat.leb_gt. lia.
  Qed.
  Lemma lim_next h p s n : lim h p s 1 = true -> lim h (padd p s) s n = lim h p s (S n).
  Proof. destruct n as [|n]; [intros ->; apply lim0|intros _; apply lim_step]. Qed.

  Lemma p_loop_cut (body body' : heap T -> ptr -> res (heap T)) (B : ptr -> bool) s :
    forall n h p, (forall h' q, (forall b, size h' b = size h b) -> body' h' q = cut (B q) (body h' q) /\ body h' q <> Panic /\
      forall h2, body h' q = Ok h2 -> forall b, size h2 b = size h' b) ->
    p_loop body' h p n s = cut (forallb (fun j => B (padd p (j * s))) (seq 0 n) && lim h p s n) (loop_ptr body h p n s) /\ loop_ptr body h p n s <> Panic /\
      (forall h2, loop_ptr body h p n s = Ok h2 -> forall b, size h2 b = size h b).
  Proof.
    induction n as [|n IH]; intros h p HB; cbn [p_loop loop_ptr].
    { cbn [seq forallb andb]. rewrite lim0. repeat split; [discriminate|intros h2 [= <-]; reflexivity]. }
    destruct (HB h p ltac:(reflexivity)) as (E & NP & SZ). rewrite E. destruct (body h p) as [h1| |] eqn:EB; [|contradiction|].
    2:{ cbn [bind cut]. repeat split; discriminate. }
    specialize (SZ h1 eq_refl). cbn [bind]. destruct (IH h1 (padd p s)) as (I1 & I2 & I3).
    { intros h' q Q. apply HB. intros b. now rewrite Q, SZ. }
    split; [|split; [exact I2|intros h2 E2 b; rewrite (I3 h2 E2 b); apply SZ]].
    cbn [seq forallb]. rewrite Nat.mul_0_l, padd0. rewrite <- (lim_size h h1 p s (S n) SZ).
    assert (F : forallb (fun j => B (padd p (j * s))) (seq 1 n) = forallb (fun j => B (padd (padd p s) (j * s))) (seq 0 n)).
    { rewrite forallb_seq_next. apply forallb_same. intros j. f_equal. unfold padd. cbn [fst snd]. f_equal. lia. }
    rewrite F. cbn [cut]. destruct (B p); cbn [bind andb].
    2:{ destruct (loop_ptr body h1 (padd p s) n s); try reflexivity. contradiction. }
    rewrite move_lim. destruct (lim h1 p s 1) eqn:L1; cbn [bind].
    - rewrite I1. now rewrite (lim_next _ _ _ _ L1).
    - rewrite (lim_false_more _ _ _ 1 (S n) L1) by lia. rewrite andb_false_r. destruct (loop_ptr body h1 (padd p s) n s); try reflexivity. contradiction.
  Qed.

  (** all the moves of fill are allowed *)
  Fixpoint fill_lim h p (sh st : list nat) (len : nat) : bool :=
    match has_uniform_stride sh st with
    | Some s => if s =? 1 then lim h p 1 len else lim h p s (prod sh)
    | None =>
        match sh, st with
        | n :: sh', s :: st' => forallb (fun j => fill_lim h (padd p (j * s)) sh' st' (nth 0 sh' 0 * nth 0 st' 0)) (seq 0 n) && lim h p s n
        | _, _ => true
        end
    end.
  Lemma fill_lim_size h h' sh : (forall b, size h' b = size h b) -> forall p st len, fill_lim h' p sh st len = fill_lim h p sh st len.
  Proof.
    intros E. induction sh as [|n sh IH]; intros p [|s st] len; cbn [fill_lim]; try (destruct (has_uniform_stride _ _); [rewrite !(lim_size h h') by exact E|]; reflexivity).
    destruct (has_uniform_stride _ _); rewrite !(lim_size h h') by exact E; [reflexivity|]. f_equal. apply forallb_same. intros j. apply IH.
  Qed.
  Lemma fill_uniform_size count : forall h p s v, fill_uniform h p count s v <> Panic /\ forall h2, fill_uniform h p count s v = Ok h2 -> forall b, size h2 b = size h b.
  Proof.
    induction count as [|c IH]; intros h p s v; cbn [fill_uniform]; [split; [discriminate|intros h2 [= <-]; reflexivity]|].
    destruct (st h p v) as [h'| |] eqn:E; cbn [bind]; [|now apply st_not_panic in E|split; discriminate].
    destruct (IH h' (padd p s) s v) as [A B]. split; [exact A|]. intros h2 E2 b. rewrite (B h2 E2 b). now apply (st_size h p v).
  Qed.
  Lemma p_fill_cut v sh : forall h p st len, length st = length sh ->
    p_fill h p sh st len v = cut (fill_lim h p sh st len) (k_fill h p sh st len v) /\ k_fill h p sh st len v <> Panic /\
    (forall h2, k_fill h p sh st len v = Ok h2 -> forall b, size h2 b = size h b).
  Proof.
    induction sh as [|n sh IH]; intros h p [|s st] len L; cbn [length] in L; try discriminate.
    - cbn [p_fill k_fill fill_lim has_uniform_stride Nat.eqb]. split; [apply p_fill_uniform_cut|]. apply fill_uniform_size.
    - cbn [p_fill k_fill fill_lim]. destruct (has_uniform_stride (n :: sh) (s :: st)) as [u|] eqn:U.
      + destruct (u =? 1); (split; [apply p_fill_uniform_cut|apply fill_uniform_size]).
      + destruct sh as [|n1 sh]; [destruct st; [|discriminate]; discriminate U|]. destruct st as [|s1 st]; [discriminate|].
        apply (p_loop_cut (fun h p => n2 <- vget (n1 :: sh) 0 ;; s2 <- vget (s1 :: st) 0 ;; k_fill h p (n1 :: sh) (s1 :: st) (n2 * s2) v)
          (fun h p => n2 <- vget (n1 :: sh) 0 ;; s2 <- vget (s1 :: st) 0 ;; p_fill h p (n1 :: sh) (s1 :: st) (n2 * s2) v)
          (fun q => fill_lim h q (n1 :: sh) (s1 :: st) (nth 0 (n1 :: sh) 0 * nth 0 (s1 :: st) 0)) s n h p).
        intros h' q Q. cbn [vget nth_error bind nth]. rewrite <- (fill_lim_size h h') by exact Q. apply IH. lia.
  Qed.
End Loops.

Section Prods.
  Context {T : Type}.
  Variable zero one : T.
  Variable add mul : T -> T -> res T.
  Variable fma : T -> T -> T -> res T.
  Implicit Types (h : heap T) (p : ptr).

  Lemma p_strided_early h p0 s0 p1 s1 dst n :
    early (lim h p0 s0 n && lim h p1 s1 n) (strided_dot zero add mul h p0 s0 p1 s1 dst n) (p_strided_dot zero add mul h p0 s0 p1 s1 dst n).
  Proof.
    unfold strided_dot, p_strided_dot. rewrite p_dot_cut. destruct (dot_go add mul h p0 s0 p1 s1 n zero) as [x| |]; cbn [bind cut early]; auto.
    destruct (_ && _); cbn [bind]; [apply early_refl|apply early_oob].
  Qed.

  Definition mv_lim h row (rs s : nat) (v : ptr) (t cols rows : nat) : bool :=
    (rows =? 0) || lim h row rs rows && lim h (padd row ((rows - 1) * rs)) s cols && lim h v t cols.

  Lemma strided_size h p0 s0 p1 s1 dst n h2 : strided_dot zero add mul h p0 s0 p1 s1 dst n = Ok h2 -> (forall b, size h2 b = size h b) /\ move h2 dst 1 = Ok (padd dst 1).
  Proof.
    unfold strided_dot. destruct (dot_go _ _ _ _ _ _ _ _ _) as [x| |]; cbn [bind]; try discriminate. intros E.
    split; [eapply add_to_size; eauto|eapply add_to_next; eauto].
  Qed.
  Lemma p_matvec_early rows : forall h row rs s v t dst cols,
    early (mv_lim h row rs s v t cols rows) (matvec_go zero add mul h row rs s v t dst cols rows) (p_matvec_go zero add mul h row rs s v t dst cols rows).
  Proof.
    induction rows as [|r IH]; intros h row rs s v t dst cols; [reflexivity|]. cbn [matvec_go p_matvec_go].
    unfold mv_lim. cbn [Nat.eqb orb]. replace (S r - 1) with r by lia.
    pose proof (p_strided_early h row s v t dst cols) as E.
    destruct (lim h row s cols && lim h v t cols) eqn:LL.
    - apply andb_true_iff in LL as [L1 L2]. rewrite L2, andb_true_r.
      destruct (strided_dot zero add mul h row s v t dst cols) as [h1| |] eqn:D; cbn [early] in E.
      + rewrite E. cbn [bind]. destruct (strided_size _ _ _ _ _ _ _ _ D) as [SZ MV]. rewrite move_lim, MV. rewrite (lim_size h h1 row rs 1 SZ).
        destruct (lim h row rs 1) eqn:L3; cbn [bind].
        * specialize (IH h1 (padd row rs) rs s v t (padd dst 1) cols). unfold mv_lim in IH.
          rewrite !(lim_size h h1) in IH by exact SZ. rewrite L2, andb_true_r in IH. rewrite (lim_next _ _ _ _ L3) in IH. destruct r as [|r]; cbn [Nat.eqb orb] in IH.
          -- rewrite L3, Nat.mul_0_l, padd0, L1. exact IH.
          -- replace (padd (padd row rs) ((S r - 1) * rs)) with (padd row (S r * rs)) in IH; [exact IH|]. unfold padd. cbn [fst snd]. f_equal. replace (S r - 1) with r by lia. lia.
        * rewrite (lim_false_more _ _ _ 1 (S r) L3) by lia. apply early_oob.
      + destruct E as [->|[E _]]; [now left|discriminate].
      + rewrite E. reflexivity.
    - assert (Z : lim h row rs (S r) && lim h (padd row (r * rs)) s cols && lim h v t cols = false).
      { apply andb_false_iff in LL as [LL|LL]; [|now rewrite LL, andb_false_r]. rewrite (lim_false_far _ _ _ _ (r * rs) LL). now rewrite andb_false_r. }
      rewrite Z. destruct (strided_dot zero add mul h row s v t dst cols) as [h1| |]; cbn [early] in E.
      + rewrite E. apply early_oob.
      + destruct E as [->|[_ ->]]; cbn [bind early]; auto.
      + rewrite E. reflexivity.
  Qed.
End Prods.

(** einsum keeps the lengths of the allocations, and its kernels make no forbidden move *)
Section Sizes.
  Context {T : Type}.
  Variable zero one : T.
  Variable add mul : T -> T -> res T.
  Variable fma : T -> T -> T -> res T.
  Implicit Types (h : heap T) (p : ptr).

  Definition keeps h (r : res (heap T)) : Prop := forall h2, r = Ok h2 -> forall b, size h2 b = size h b.
  Lemma keeps_ok h : keeps h (Ok h).
  Proof. intros h2 [= <-]. reflexivity. Qed.
  Lemma keeps_bind {A} h (m : res A) k : (forall x, m = Ok x -> keeps h (k x)) -> keeps h (bind m k).
  Proof. destruct m; cbn [bind]; intros K; [now apply K|intros h2; discriminate|intros h2; discriminate]. Qed.
  Lemma keeps_trans h h1 r : (forall b, size h1 b = size h b) -> keeps h1 r -> keeps h r.
  Proof. intros E K h2 R b. rewrite (K h2 R b). apply E. Qed.
  Lemma keeps_seq h m (k : heap T -> res (heap T)) : keeps h m -> (forall h1, keeps h1 (k h1)) -> keeps h (bind m k).
  Proof. intros K1 K2. apply keeps_bind. intros h1 E. apply (keeps_trans h h1); [now apply K1|apply K2]. Qed.
  Lemma keeps_st h p v : keeps h (st h p v).
  Proof. intros h2 E. now apply (st_size h p v). Qed.
  Lemma keeps_add h p v : keeps h (add_to add h p v).
  Proof. intros h2 E. now apply (add_to_size add h p v). Qed.

  Lemma keeps_generic ps ss dst ds : forall k h, keeps h (sop_generic_go one add mul h ps ss dst ds k).
  Proof.
    induction k as [|k IH]; intros h; cbn [sop_generic_go]; [apply keeps_ok|]. repeat (apply keeps_bind; intros ? ?).
    eapply keeps_trans; [|apply IH]. eapply keeps_add. eassumption.
  Qed.
  Lemma keeps_muladd c : forall k h data dst, keeps h (muladd_go fma h c data dst k).
  Proof. induction k as [|k IH]; intros h data dst; cbn [muladd_go]; [apply keeps_ok|]. repeat (apply keeps_bind; intros ? ?). eapply keeps_trans; [|apply IH]. eapply keeps_st. eassumption. Qed.
  Lemma keeps_111 : forall k h p0 p1 dst, keeps h (sop_111_go add mul h p0 p1 dst k).
  Proof. induction k as [|k IH]; intros h p0 p1 dst; cbn [sop_111_go]; [apply keeps_ok|]. repeat (apply keeps_bind; intros ? ?). eapply keeps_trans; [|apply IH]. eapply keeps_add. eassumption. Qed.
  Lemma keeps_slice h ps ss dst ds n : keeps h (sop_slice zero one add mul h ps ss dst ds n).
  Proof.
    unfold sop_slice. destruct (ds =? 0); [unfold sop_out0|unfold sop_generic]; repeat (apply keeps_bind; intros ? ?); [apply keeps_st|apply keeps_generic].
  Qed.
  Lemma keeps_scaled h p0 p1 dst n : keeps h (sop_scaled zero add fma h p0 p1 dst n).
  Proof. unfold sop_scaled. repeat (apply keeps_bind; intros ? ?). apply keeps_st. Qed.
  Lemma keeps_sop_muladd h p0 p1 dst n : keeps h (sop_muladd fma h p0 p1 dst n).
  Proof. unfold sop_muladd. repeat (apply keeps_bind; intros ? ?). apply keeps_muladd. Qed.
  Lemma keeps_two h p0 s0 p1 s1 dst ds n : keeps h (sop_two zero one add mul fma h p0 s0 p1 s1 dst ds n).
  Proof.
    assert (G : keeps h (if ds =? 0 then sop_out0 zero one add mul h [p0; p1] [s0; s1] dst n else sop_generic one add mul h [p0; p1] [s0; s1] dst ds n)) by apply (keeps_slice h [p0; p1] [s0; s1] dst ds n).
    unfold sop_two. cbv zeta. match goal with |- keeps h (match ?cc with _ => _ end) => destruct cc as [|[|[|[|[|[|[|[|c]]]]]]]] end; try exact G;
      try apply keeps_scaled; try apply keeps_sop_muladd.
    - apply keeps_bind. intros _ _. intros h2 E. now destruct (strided_size zero add mul _ _ _ _ _ _ _ _ E).
    - unfold sop_111. apply keeps_bind. intros _ _. apply keeps_111.
  Qed.
  Lemma keeps_fixed h ps ss dst ds n : keeps h (sop_fixed zero one add mul fma h ps ss dst ds n).
  Proof.
    assert (G : keeps h (if ds =? 0 then sop_out0 zero one add mul h ps ss dst n else sop_generic one add mul h ps ss dst ds n)) by apply (keeps_slice h ps ss dst ds n).
    unfold sop_fixed. destruct ps as [|p0 [|p1 [|]]], ss as [|s0 [|s1 [|]]]; try exact G. apply keeps_two.
  Qed.
  Lemma keeps_each {A} (body : A -> heap T -> res (heap T)) l : (forall x h, keeps h (body x h)) -> forall h, keeps h (for_each body l h).
  Proof. intros K. induction l as [|x l IH]; intros h; cbn [for_each]; [apply keeps_ok|]. apply keeps_seq; [apply K|exact IH]. Qed.
  Lemma keeps_run h bases strides sh dst : keeps h (run_einsum zero one add mul fma h bases strides sh dst).
  Proof.
    assert (U : keeps h (unspecialized zero one add mul h bases strides sh dst)).
    { unfold unspecialized. destruct strides as [|inner strides]; [intros h2; discriminate|]. destruct sh as [|n0 sh]; [intros h2; discriminate|].
      apply keeps_bind. intros g _. generalize (prod sh). intros k. revert g h. induction k as [|k IH]; intros g h; cbn [unspec_go]; [apply keeps_ok|].
      apply keeps_seq; [unfold call_sop; apply keeps_slice|]. intros h1. apply keeps_bind. intros g' _. apply IH. }
    unfold run_einsum. destruct (_ || _); [|exact U]. destruct strides as [|d0 [|d1 [|d2 [|]]]]; try exact U; destruct sh as [|n0 [|n1 [|n2 [|]]]]; try exact U.
    - unfold einsum_2labels. do 2 (apply keeps_bind; intros _ _). apply keeps_each. intros i h1. unfold call_sop. apply keeps_fixed.
    - unfold einsum_3labels. do 3 (apply keeps_bind; intros _ _). apply keeps_each. intros i h1. apply keeps_each. intros j h2. unfold call_sop. apply keeps_fixed.
  Qed.
  Lemma keeps_uniform h p n s v : keeps h (fill_uniform h p n s v).
  Proof. intros h2. apply fill_uniform_size. Qed.
  Lemma keeps_kfill h p sh st len v : keeps h (k_fill h p sh st len v).
  Proof.
    revert h p st len. induction sh as [|n sh IH]; intros h p [|s st] len; cbn [k_fill]; destruct (has_uniform_stride _ _) as [u|]; try (destruct (u =? 1); apply keeps_uniform); try (intros h2; discriminate).
    generalize n at 1. intros k. revert h p. induction k as [|k IHk]; intros h p; cbn [loop_ptr]; [apply keeps_ok|]. apply keeps_seq; [|intros h1; apply IHk].
    do 2 (apply keeps_bind; intros ? ?). apply IH.
  Qed.
  Lemma keeps_into h ops subs out rst dst : keeps h (einsum_into_ptr zero one add mul fma h ops subs out rst dst).
  Proof.
    unfold einsum_into_ptr. apply keeps_bind. intros [[strides ish] osh] _. apply keeps_bind. intros _ _. apply keeps_seq; [apply keeps_kfill|]. intros h1. apply keeps_run.
  Qed.

  (** ** the kernels *)
  Lemma p_dot_unit n : forall h p0 p1 acc, p_dot_go add mul h p0 1 p1 1 n acc = dot_go add mul h p0 1 p1 1 n acc.
  Proof.
    induction n as [|n IH]; intros h p0 p1 acc; cbn [p_dot_go dot_go]; [reflexivity|].
    destruct (ld h p0) as [x| |] eqn:E0; cbn [bind]; try reflexivity. destruct (ld h p1) as [y| |] eqn:E1; cbn [bind]; try reflexivity.
    destruct (mul x y) as [v| |]; cbn [bind]; try reflexivity. destruct (add acc v) as [s| |]; cbn [bind]; try reflexivity.
    rewrite (ld_next _ _ _ E0), (ld_next _ _ _ E1). cbn [bind]. apply IH.
  Qed.
  Lemma p_two_eq h p0 s0 p1 s1 dst ds n : p_sop_two zero one add mul fma h p0 s0 p1 s1 dst ds n = sop_two zero one add mul fma h p0 s0 p1 s1 dst ds n.
  Proof.
    unfold p_sop_two, sop_two, p_sop_muladd, sop_muladd, sop_111, p_strided_dot, strided_dot. cbv zeta.
    match goal with |- (match ?cc with _ => _ end) = _ => destruct cc as [|[|[|[|[|[|[|[|c]]]]]]]] end; try reflexivity.
    - destruct (uassert _); cbn [bind]; try reflexivity. destruct (ld h p0); cbn [bind]; try reflexivity. apply p_muladd_eq.
    - destruct (uassert _); cbn [bind]; try reflexivity. destruct (ld h p1); cbn [bind]; try reflexivity. apply p_muladd_eq.
    - now rewrite p_dot_unit.
    - destruct (uassert _); cbn [bind]; try reflexivity. apply p_111_eq.
  Qed.
  Lemma p_fixed_eq h ps ss dst ds n : p_sop_fixed zero one add mul fma h ps ss dst ds n = sop_fixed zero one add mul fma h ps ss dst ds n.
  Proof. unfold p_sop_fixed, sop_fixed. destruct ps as [|p0 [|p1 [|]]], ss as [|s0 [|s1 [|]]]; try reflexivity. apply p_two_eq. Qed.
  Lemma each_ext {A} (f g : A -> heap T -> res (heap T)) l : (forall x h, f x h = g x h) -> forall h, for_each f l h = for_each g l h.
  Proof. intros E. induction l as [|x l IH]; intros h; cbn [for_each]; [reflexivity|]. rewrite E. destruct (g x h); cbn [bind]; auto. Qed.
  Lemma p_run_eq h bases strides sh dst : p_run_einsum zero one add mul fma h bases strides sh dst = run_einsum zero one add mul fma h bases strides sh dst.
  Proof.
    unfold p_run_einsum, run_einsum. destruct (_ || _); [|reflexivity]. destruct strides as [|d0 [|d1 [|d2 [|]]]]; try reflexivity; destruct sh as [|n0 [|n1 [|n2 [|]]]]; try reflexivity.
    - unfold p_2labels, einsum_2labels. do 2 (destruct (uassert _); cbn [bind]; try reflexivity). apply each_ext. intros. unfold call_sop. apply p_fixed_eq.
    - unfold p_3labels, einsum_3labels. do 3 (destruct (uassert _); cbn [bind]; try reflexivity). apply each_ext. intros i h1. apply each_ext. intros j h2. unfold call_sop. apply p_fixed_eq.
  Qed.

  Lemma p_bmm_early n : forall h a b sa sb rst rs dst, (n = 0 \/ exists m, size h (fst dst) = Some m /\ snd dst + n * rs <= m) ->
    early (lim h (a_ptr a) sa n && lim h (a_ptr b) sb n) (bmm_go zero one add mul fma h a b sa sb rst rs dst n) (p_bmm_go zero one add mul fma h a b sa sb rst rs dst n).
  Proof.
    induction n as [|n IH]; intros h a b sa sb rst rs dst D; cbn [bmm_go p_bmm_go]; [now rewrite !lim0|].
    destruct D as [D|(m & SD & D)]; [discriminate|].
    destruct (matrix_matrix zero one add mul fma h a b rst dst) as [h1| |] eqn:E; cbn [bind early]; auto.
    assert (SZ : forall b, size h1 b = size h b) by (eapply keeps_into; eauto).
    assert (M : move h1 dst rs = Ok (padd dst rs)). { rewrite move_size, SZ, SD. assert (snd dst + rs <=? m = true) as -> by (apply Nat.leb_le; lia). now rewrite orb_true_r. }
    rewrite M. cbn [bind]. unfold move_arr. rewrite !move_lim, !(lim_size h h1) by exact SZ.
    destruct (lim h (a_ptr a) sa 1) eqn:LA; cbn [bind].
    2:{ rewrite (lim_false_more _ _ _ 1 (S n) LA) by lia. cbn [andb]. apply early_oob. }
    destruct (lim h (a_ptr b) sb 1) eqn:LB; cbn [bind].
    2:{ rewrite (lim_false_more _ _ _ 1 (S n) LB) by lia. rewrite andb_false_r. apply early_oob. }
    specialize (IH h1 (shift_arr a sa) (shift_arr b sb) sa sb rst rs (padd dst rs)).
    change (a_ptr (shift_arr a sa)) with (padd (a_ptr a) sa) in IH. change (a_ptr (shift_arr b sb)) with (padd (a_ptr b) sb) in IH.
    rewrite !(lim_size h h1) in IH by exact SZ. rewrite (lim_next _ _ _ _ LA), (lim_next _ _ _ _ LB) in IH. apply IH.
    destruct n; [now left|right]. exists m. cbn [padd fst snd]. rewrite SZ. split; [exact SD|lia].
  Qed.
End Sizes.

(** ** iter_along *)
Section Iterate.
  Context {T : Type}.
  Lemma size_snoc (h : heap T) b n x : size h b = Some n -> size (h ++ [x]) b = Some n.
  Proof. unfold size. intros E. destruct (nth_error h b) eqn:N; [|discriminate]. rewrite nth_error_app1; [now rewrite N|]. apply nth_error_Some. congruence. Qed.
  Lemma size_snoc_lim (h : heap T) p n x s k : size h (fst p) = Some n -> lim (h ++ [x]) p s k = lim h p s k.
  Proof. intros E. unfold lim. now rewrite (size_snoc h (fst p) n x E), E. Qed.
  Lemma p_collect_early n s N m : forall j (h : heap T) r, j + m = n -> size h (a_blk r) = Some N ->
    early (lim h (a_ptr r) s m) (nditer_collect (S m) h (mkIt r [n] [s] [j] j n)) (p_collect (S m) h (mkIt r [n] [s] [j] j n)).
  Proof.
    induction m as [|m IH]; intros j h r J SZ.
    - cbn [nditer_collect p_collect]. unfold nditer_next, p_next. cbn [it_k it_size]. rewrite (proj2 (Nat.eqb_eq j n)) by lia. cbn [bind]. now rewrite lim0.
    - remember (S m) as m1. cbn [nditer_collect p_collect]. unfold nditer_next at 1, p_next at 1. cbn [it_k it_size it_res it_shape it_stride it_idx].
      rewrite (proj2 (Nat.eqb_neq j n)) by lia. unfold nd_clone, from_buffer. destruct (clone_data h r) as [d| |]; cbn [bind early]; auto.
      cbn [alloc fst snd nditer_carry p_carry bind]. rewrite (proj2 (Nat.eqb_neq j n)) by lia. cbn [negb bind]. rewrite move_lim.
      change (a_blk r, a_off r) with (a_ptr r). rewrite (size_snoc_lim h (a_ptr r) N) by exact SZ.
      destruct (lim h (a_ptr r) s 1) eqn:L; cbn [bind].
      2:{ rewrite (lim_false_more _ _ _ 1 m1 L) by lia. apply early_oob. }
      subst m1. cbn [snd padd a_ptr].
      specialize (IH (S j) (h ++ [Some d]) (set_off r (a_off r + s)) ltac:(lia)). cbn [a_blk set_off] in IH. specialize (IH (size_snoc h _ _ _ SZ)).
      change (a_ptr (set_off r (a_off r + s))) with (padd (a_ptr r) s) in IH. rewrite (size_snoc_lim h _ N) in IH by exact SZ. rewrite (lim_next _ _ _ _ L) in IH.
      destruct (nditer_collect (S m) _ _) as [q| |]; cbn [early bind] in IH |- *.
      + rewrite IH. destruct (lim h (a_ptr r) s (S m)); reflexivity.
      + destruct IH as [->|[-> ->]]; cbn [bind]; auto.
      + now rewrite IH.
  Qed.
End Iterate.
