(** PropsBuildsGrad.v: tensor programs and their gradients in every build (C83). *)
From Coq Require Import List Arith Lia Bool ZArith Permutation QArith Qcanon.
From Verif Require Import Base Spec Layout Views Kernels Access Reduce Einsum Vdsp PropsVdsp SimdRed SpecGrad Autograd GradFacts4 GradFacts5 PropsGrad PropsGrad2 SpecFlow PropsFlow
  Builds BuildsFacts BuildsGrad BuildsGradFacts BuildsGradFacts4.
Import ListNotations.
Open Scope res_scope.

(** ** C83: the features make no difference to a tensor program.
    The state at the end is the same, or the program panics in both: memory, tensors, nodes and
    gradients.  With BLAS the operands and results of matrix products have no axis of length 1
    (see [C83_unit_axes]) and fewer than 2^31 elements. *)
Theorem C83_programs : forall T (N : num T) inv B, is_field N inv -> build_ok (nop N) B -> tame B ->
  forall p, admissible N p (s0 N) -> all_bfine N B p (s0 N) -> krun N (built N B) p g0 = Autograd.run N p g0.
Proof. intros T N inv B F BOK TM p A BF. exact (krun_eq N inv F B BOK TM p g0 (s0 N) [] (sim0 N) (tidy0 B) A BF). Qed.
Print Assumptions C83_programs.

(** NEON and vDSP, together or alone, ask nothing *)
Theorem C83_without_blas : forall T (N : num T) inv B, is_field N inv -> build_ok (nop N) B -> blas B = None ->
  forall p, admissible N p (s0 N) -> krun N (built N B) p g0 = Autograd.run N p g0.
Proof.
  intros T N inv B F BOK NB p A. apply (C83_programs T N inv B F BOK); [|exact A|].
  - intros bad h h' E. congruence.
  - clear A. generalize (s0 N). induction p as [|i p IH]; intros s; [exact I|]. split; [|apply IH]. intros Q. contradiction.
Qed.
Print Assumptions C83_without_blas.

(** so the values and the gradients are those of the reference machine in every build ... *)
Theorem C83_reference : forall T (N : num T) inv B, is_field N inv -> build_ok (nop N) B -> tame B ->
  forall p, admissible N p (s0 N) -> all_bfine N B p (s0 N) ->
  krun N (built N B) p g0 = Panic \/ exists st, krun N (built N B) p g0 = Ok st /\ agrees N st (srun N p (s0 N)).
Proof. intros T N inv B F BOK TM p A BF. rewrite (C83_programs T N inv B F BOK TM p A BF). exact (C33_programs_partial T N inv F p A). Qed.
Print Assumptions C83_reference.
(** ... and the layout machine of C82 says which programs panic *)
Theorem C83_panics : forall T (N : num T) inv B, is_field N inv -> build_ok (nop N) B -> tame B ->
  forall p, admissible N p (s0 N) -> all_bfine N B p (s0 N) -> (krun N (built N B) p g0 = Panic <-> lrun p [] = None).
Proof. intros T N inv B F BOK TM p A BF. rewrite (C83_programs T N inv B F BOK TM p A BF). exact (C82_panics T N p A). Qed.
Print Assumptions C83_panics.

(** ** builds over a field *)
Lemma fold_right_sums {T} (N : num T) inv : is_field N inv -> sums_once (nadd N) (fold_right (nadd N) (n0 N)).
Proof.
  intros F xs NE. pose proof (fld_csr _ _ F) as C. destruct (tree_fold (nadd N) (tl xs) (Leaf (hd (n0 N) xs))) as (t & E & L). exists t.
  destruct xs as [|x xs]; [contradiction|]. cbn [hd tl leaves teval app] in *. split; [rewrite L; apply Permutation_refl|].
  rewrite <- E. cbn [fold_right]. clear - C. revert x. induction xs as [|y xs IH]; intros x; cbn [fold_left fold_right].
  - rewrite (csr_add_comm _ _ _ _ C). apply (csr_add_0 _ _ _ _ C).
  - rewrite <- IH. apply (csr_add_assoc _ _ _ _ C).
Qed.

Definition all_features {T} (N : num T) : @build T := mkBuild (Some 2) (Some (fun h => Ok h)) (Some (fold_right (nadd N) (n0 N))) true.
Definition just_blas {T} : @build T := mkBuild None (Some (fun h => Ok h)) None false.
Lemma all_features_ok {T} (N : num T) inv : is_field N inv -> build_ok (nop N) (all_features N) /\ tame (all_features N).
Proof.
  intros F. split; [split; cbn [all_features neon vdsp]|].
  - intros L [= <-]. now left.
  - intros lib [= <-]. split; [exact (fold_right_sums N inv F)|]. split; [apply (csr_add_comm _ _ _ _ (fld_csr _ _ F))|apply (csr_mul_comm _ _ _ _ (fld_csr _ _ F))].
  - intros bad h h' [= <-] [= <-]. reflexivity.
Qed.
Lemma just_blas_ok {T} (N : num T) : build_ok (nop N) (just_blas (T := T)) /\ tame (just_blas (T := T)).
Proof. split; [split; cbn [just_blas neon vdsp]; discriminate|]. intros bad h h' [= <-] [= <-]. reflexivity. Qed.

(** the gradient of tensor [j] after a program *)
Definition kgrad_of {T} (N : num T) (B : @build T) (p : list (instr T)) (j : nat) : res (list T) :=
  st <- krun N (built N B) p g0 ;;
  t <- vget (g_ts st) j ;;
  match t_gradient st t with Some a => elems (g_heap st) a | None => Panic end.

(** A layer: x [2,3] times w [3,2], divided by its own square plus a broadcast bias, and a
    product with the transpose; three different sequences of library calls, one gradient. *)
Definition p83 : list (instr Qc) :=
  [INew [2; 3] [qc 1; qc 2; qc 3; qc 4; qc 5; qc 6]; INew [3; 2] [qc 1; qc (-1); qc 2; qc 0; qc 1; qc 3]; ISetGrad 0 true; ISetGrad 1 true;
   IMatmul 0 1; INew [2] [qc 10; qc 20]; ISetGrad 3 true; IBin BAdd 2 3; ITranspose TRef 4 0 1; IMatmul 5 4; IBin BDiv 6 4;
   IReshape TRef 7 [2; 1; 2]; IReshape TRef 8 [4]; IDot 9 9; IBackward 10].
(** both conditions, computed *)
Section Check.
  Context {T : Type} (N : num T).
  Definition scopeb (s : @sstate T) (i : instr T) : bool :=
    match i with
    | IReshape TClone i _ | ISqueeze TClone i | IUnsqueeze TClone i _ => match nth_error (s_ts s) i with Some x => s_rm x | None => true end
    | IBackwardWith _ (SBcast _ _ _) | IBackwardWith _ (SGrad _) => false
    | _ => true
    end.
  Definition wideb (sh : list nat) : bool := forallb (Nat.leb 2) sh && (Z.of_nat (prod sh) <? 2 ^ 31)%Z.
  Definition fineb (s : @sstate T) (i : instr T) : bool :=
    let two i j f := match nth_error (s_ts s) i, nth_error (s_ts s) j with Some x, Some y => wideb (s_shape x) && wideb (s_shape y) && f (s_shape x) (s_shape y) | _, _ => true end in
    match i with
    | IDot i j => two i j (fun _ _ => true)
    | IMatmul i j => two i j (fun x y => wideb (fst (m_product N x (fun _ => n0 N) y (fun _ => n0 N))))
    | IBmm i j => two i j (fun x y => wideb (fst (m_batched N x (fun _ => n0 N) y (fun _ => n0 N))) &&
        match x, y with [q; _; k], [q'; k'; _] => negb (q =? q') || (k =? k') | _, _ => true end)
    | _ => true
    end.
  Fixpoint fitsb (p : list (instr T)) (s : @sstate T) : bool :=
    match p with
    | [] => true
    | i :: p' => scopeb s i && forallb (fun t => length (s_shape t) <=? MAX_DIMS) (s_ts (sstep N s i)) && fineb s i && fitsb p' (sstep N s i)
    end.
  Lemma wideb_wide sh : wideb sh = true -> wide sh.
  Proof. unfold wideb, wide. rewrite andb_true_iff, Z.ltb_lt, forallb_forall, Forall_forall. intros [H1 H2]. split; [|exact H2]. intros x J. now apply Nat.leb_le, H1. Qed.
  Lemma fitsb_fits p : forall s, fitsb p s = true -> admissible N p s /\ forall B, all_bfine N B p s.
  Proof.
    induction p as [|i p IH]; intros s H; [split; [exact I|intros B; exact I]|]. cbn [fitsb] in H. apply andb_prop in H as [H H4]. apply andb_prop in H as [H H3]. apply andb_prop in H as [H1 H2].
    destruct (IH _ H4) as [A BF]. split; [split; [|split; [|exact A]]|intros B; split; [|apply BF]].
    - destruct i as [| | | | | | | |m i|[| |] i sh|[| |] i|[| |] i ax| |i|i [| | |]|]; cbn [in_scope scopeb] in *; try exact I; try discriminate; intros x E; rewrite E in H1; exact H1.
    - unfold small. rewrite Forall_forall. rewrite forallb_forall in H2. intros t J. now apply Nat.leb_le, H2.
    - intros _. destruct i; cbn [fineb] in *; try exact I; intros x y E1 E2; rewrite E1, E2 in H3; apply andb_prop in H3 as [H3 H5]; apply andb_prop in H3 as [H3 H6];
        apply wideb_wide in H3, H6; (split; [exact H3|]).
      + exact H6.
      + split; [exact H6|]. now apply wideb_wide.
      + apply andb_prop in H5 as [H5 H7]. split; [exact H6|]. split; [now apply wideb_wide|].
        destruct (s_shape x) as [|q [|? [|k [|? ?]]]]; try exact I. destruct (s_shape y) as [|q' [|k' [|? [|? ?]]]]; try exact I. intros ->. rewrite Nat.eqb_refl in H7. now apply Nat.eqb_eq.
  Qed.
End Check.

Example C83_ex : admissible QN p83 (s0 QN) /\ (forall B, all_bfine QN B p83 (s0 QN)) /\
  let out B := match kgrad_of QN B p83 1 with Ok l => map this l | _ => [] end in
  out (all_features QN) = [114461002 # 55125; 94968453637 # 84257950; 28300261 # 11025; 62745395182 # 42128975; 56180536 # 18375; 156013127091 # 84257950]%Q /\
  out just_blas = out (all_features QN) /\ out portable = out (all_features QN).
Proof.
  destruct (fitsb_fits QN p83 (s0 QN)) as [A BF]; [vm_compute; reflexivity|]. split; [exact A|]. split; [exact BF|]. vm_compute. split; [reflexivity|]. split; reflexivity.
Qed.

(** ** A column times a row, with BLAS.
    The transpose of x [2,1] has strides [1,1]; its leading dimension 1 is less than its width
    2, which cblas_gemm rejects.  A library that rejects by returning (the reference
    implementation prints a message and may return) leaves the product at zero, and the
    gradient of w is zero in place of 3, 3; nothing is reported. *)
Definition p83u : list (instr Z) := [INew [2; 1] [1; 2]%Z; INew [1; 2] [3; 4]%Z; ISetGrad 0 true; ISetGrad 1 true; IMatmul 0 1; IBackward 2].
Theorem C83_unit_axes : exists B : @build Z, build_ok (nop ZN) B /\ tame B /\ admissible ZN p83u (s0 ZN) /\
  kgrad_of ZN B p83u 0 = grad_of ZN p83u 0 /\ kgrad_of ZN B p83u 1 = Ok [0; 0]%Z /\ grad_of ZN p83u 1 = Ok [3; 3]%Z /\ sgrad_of ZN p83u 1 = Some [3; 3]%Z.
Proof. exists just_blas. split; [apply just_blas_ok|]. split; [apply (just_blas_ok ZN)|]. split; [admit_program|]. vm_compute. auto. Qed.
Print Assumptions C83_unit_axes.
