(** PropsNew.v: building arrays from nested data. *)
From Coq Require Import List Arith Lia Bool.
From Verif Require Import Base Spec Layout SpecFacts LayoutFacts Views Kernels Access HeapFacts KernelFacts OpFacts AccessFacts
  Chain ChainFacts PropsViews PropsOps EinsumFacts8 Nested.
Import ListNotations.
Open Scope res_scope.

(** ** Specification *)
(** rectangular data of shape [sh] *)
Fixpoint rect {T} (sh : list nat) (d : nest T) : Prop :=
  match sh with
  | [] => exists x, d = Leaf x
  | n :: sh' => exists l, d = Node l /\ length l = n /\ Forall (rect sh') l
  end.
(** data[i0][i1]... *)
Fixpoint lookup {T} (idx : list nat) (d : nest T) : res T :=
  match idx, d with
  | [], Leaf x => Ok x
  | i :: idx', Node l => match nth_error l i with Some d' => lookup idx' d' | None => Panic end
  | _, _ => Panic
  end.

Lemma rect_shape {T} : forall ks (d : nest T) sh, typed ks d -> rect sh d -> length sh = length ks -> 0 < prod sh -> nest_shape ks d = Ok sh.
Proof.
  induction ks as [|k ks IH]; intros d [|n sh] TY R L P; try discriminate; [reflexivity|]. injection L as L. cbn [rect] in R.
  destruct R as (l & -> & LL & F). rewrite prod_cons in P. assert (P' : 0 < prod sh) by (destruct (prod sh); lia).
  destruct ks as [|k' ks]; [destruct sh; [|discriminate]; cbn [nest_shape children]; now rewrite LL|].
  destruct l as [|x l]; [cbn in LL; lia|]. inversion F; subst.
  assert (TX : typed (k' :: ks) x).
  { cbn [typed] in TY. destruct k; [destruct TY as (l' & E & FT)|destruct TY as (l' & E & _ & FT)]; injection E as <-; now inversion FT. }
  change (nest_shape (k :: k' :: ks) (Node (x :: l))) with (s <- nest_shape (k' :: ks) x ;; Ok (length (x :: l) :: s)).
  rewrite (IH x sh TX H1 L P'). reflexivity.
Qed.

Lemma mem_rect {T} : forall ks (d : nest T) sh, typed ks d -> rect sh d -> length sh = length ks -> mapM (fun idx => lookup idx d) (indices sh) = Ok (nest_mem ks d).
Proof.
  induction ks as [|k ks IH]; intros d [|n sh] TY R L; try discriminate.
  - destruct R as (x & ->). reflexivity.
  - injection L as L. cbn [rect] in R. destruct R as (l & -> & LL & F). cbn [nest_mem children indices].
    assert (FT : Forall (typed ks) l) by (cbn [typed] in TY; destruct k; [destruct TY as (l' & E & FT)|destruct TY as (l' & E & _ & FT)]; injection E as <-; exact FT).
    assert (H : forall pre l : list (nest T), Forall (rect sh) l -> Forall (typed ks) l ->
      mapM (fun idx => lookup idx (Node (pre ++ l))) (flat_map (fun i => map (cons i) (indices sh)) (seq (length pre) (length l))) = Ok (flat_map (nest_mem ks) l)).
    { clear - IH L. intros pre l. revert pre. induction l as [|x l IHl]; intros pre F FT; [reflexivity|]. inversion F; inversion FT; subst.
      cbn [length seq flat_map]. rewrite mapM_app, mapM_map.
      rewrite (mapM_ext _ (fun idx => lookup idx x)).
      - rewrite (IH x sh H5 H1 L). cbn [bind].
        specialize (IHl (pre ++ [x]) H2 H6). rewrite app_length in IHl. cbn [length] in IHl. rewrite Nat.add_1_r, <- app_assoc in IHl. cbn [app] in IHl.
        rewrite IHl. reflexivity.
      - intros idx _. cbn [lookup]. rewrite nth_error_app2, Nat.sub_diag by lia. reflexivity. }
    rewrite <- LL. exact (H [] l F FT).
Qed.

Lemma rect_mem_length {T} ks (d : nest T) sh : typed ks d -> rect sh d -> length sh = length ks -> length (nest_mem ks d) = prod sh.
Proof. intros TY R L. pose proof (mapM_length _ _ _ (mem_rect ks d sh TY R L)) as E. now rewrite indices_length in E. Qed.

(** a container type without a fixed-size array around a Vec *)
Definition vecs_outside (ks : list kind) : Prop := exists m ns, ks = repeat KVec m ++ map KArr ns.

Lemma arrs_flatten {T} ns : ns <> [] -> forall (d : nest T) sh, typed (map KArr ns) d -> rect sh d -> length sh = length ns -> 0 < prod sh ->
  nest_flatten (map KArr ns) d = Ok (nest_mem (map KArr ns) d).
Proof.
  intros NE d sh TY R L P. destruct ns as [|n [|n' ns]]; [contradiction|reflexivity|].
  set (ks := map KArr (n :: n' :: ns)) in *. assert (E : nest_flatten ks d = (s <- nest_shape ks d ;; if forallb is_arr (tl ks) && (length (nest_mem ks d) =? prod s) then Ok (nest_mem ks d) else Oob)) by reflexivity.
  rewrite E. rewrite (rect_shape ks d sh TY R) by (auto; unfold ks; now rewrite map_length). cbn [bind].
  assert (FA : forallb is_arr (tl ks) = true) by (apply forallb_forall; intros k I; unfold ks in I; cbn [map tl] in I; change (In k (map KArr (n' :: ns))) in I; apply in_map_iff in I as (x & <- & _); reflexivity). rewrite FA.
  rewrite (rect_mem_length ks d sh TY R) by (unfold ks; now rewrite map_length). now rewrite Nat.eqb_refl.
Qed.

Lemma rect_flatten {T} ks : vecs_outside ks -> ks <> [] -> forall (d : nest T) sh, typed ks d -> rect sh d -> length sh = length ks -> 0 < prod sh ->
  nest_flatten ks d = Ok (nest_mem ks d).
Proof.
  intros (m & ns & ->). induction m as [|m IH]; intros NE d sh TY R L P.
  - cbn [repeat app] in *. apply (arrs_flatten ns) with (sh := sh); auto; [intros ->; now apply NE|]. now rewrite map_length in L.
  - cbn [repeat app] in *. set (ks := repeat KVec m ++ map KArr ns) in *. destruct ks as [|k' ks'] eqn:EK; [reflexivity|].
    destruct sh as [|n sh]; [discriminate|]. injection L as L. rewrite prod_cons in P. assert (P' : 0 < prod sh) by (destruct (prod sh); lia).
    cbn [rect] in R. destruct R as (l & -> & LL & F). cbn [typed] in TY. destruct TY as (l' & E & FT). injection E as <-.
    change (nest_flatten (KVec :: k' :: ks') (Node l)) with (ls <- mapM (nest_flatten (k' :: ks')) l ;; Ok (concat ls)).
    assert (EM : mapM (nest_flatten (k' :: ks')) l = Ok (map (nest_mem (k' :: ks')) l)).
    { clear - IH F FT L P'. induction l as [|x l IHl]; [reflexivity|]. inversion F; inversion FT; subst. cbn [mapM map].
      rewrite (IH ltac:(discriminate) x sh) by auto. cbn [bind]. rewrite IHl by auto. reflexivity. }
    rewrite EM. cbn [bind]. now rewrite <- flat_map_concat_map.
Qed.

Lemma allM_true {A} (f : A -> res bool) l : (forall x, In x l -> f x = Ok true) -> allM f l = Ok true.
Proof. induction l as [|x l IH]; intros H; [reflexivity|]. cbn [allM]. rewrite H by now left. cbn [bind]. apply IH. intros y I. apply H. now right. Qed.
Lemma allM_inv {A} (f : A -> res bool) l : allM f l = Ok true -> forall x, In x l -> f x = Ok true.
Proof.
  induction l as [|y l IH]; intros H x []; cbn [allM] in H; destruct (f y) as [[|]| |] eqn:E; try discriminate; cbn [bind] in H; [now subst|auto].
Qed.

Lemma rect_check {T} ks (d : nest T) sh : typed ks d -> rect sh d -> length sh = length ks -> 0 < prod sh -> check_homogenous ks d = Ok true.
Proof.
  intros TY R L P. destruct ks as [|[|n] [|k' ks]]; try reflexivity. destruct sh as [|n sh]; [discriminate|]. injection L as L.
  rewrite prod_cons in P. assert (P' : 0 < prod sh) by (destruct (prod sh); lia). destruct R as (l & -> & LL & F). destruct TY as (l' & E & FT). injection E as <-.
  destruct l as [|x l]; [cbn in LL; lia|]. cbn [check_homogenous children]. unfold vget. cbn [nth_error bind].
  assert (SH : forall y, In y (x :: l) -> nest_shape (k' :: ks) y = Ok sh).
  { intros y I. apply rect_shape; auto; rewrite Forall_forall in *; auto. }
  rewrite (SH x) by now left. cbn [bind]. apply allM_true. intros y I. rewrite SH by exact I. cbn [bind]. destruct (list_eq_dec _ _ _); congruence.
Qed.

(** ** C04.  Rectangular non-empty data of any depth is accepted, element (i0, .., ik) is
    data[i0]..[ik].  Missing: fixed-size arrays around Vecs (refuted below). *)
Theorem C04_rectangular_partial : forall T (h : heap T) ks d sh, vecs_outside ks -> ks <> [] ->
  typed ks d -> rect sh d -> length sh = length ks -> 0 < prod sh ->
  exists h' r, nd_new h ks d = Ok (h', r) /\ fresh_result h h' r sh (fun idx => lookup idx d).
Proof.
  intros T h ks d sh VO NE TY R L P. unfold nd_new. rewrite (rect_check ks d sh TY R L P). cbn [bind guard].
  rewrite (rect_shape ks d sh TY R L P). cbn [bind]. rewrite (rect_flatten ks VO NE d sh TY R L P). cbn [bind].
  pose proof (rect_mem_length ks d sh TY R L) as LM. rewrite (proj2 (Nat.eqb_neq _ _)) by lia. cbn [negb guard bind]. unfold from_buffer, alloc. rewrite LM.
  eexists _, _. split; [reflexivity|]. apply fresh_result_of; [exact P|]. now apply mem_rect.
Qed.
Print Assumptions C04_rectangular_partial.

(** ragged data is rejected when at most two levels are Vecs *)
Lemma arrs_rect {T} ns : forall d : nest T, typed (map KArr ns) d -> rect ns d.
Proof.
  induction ns as [|n ns IH]; intros d TY; [exact TY|]. cbn [map typed rect] in *. destruct TY as (l & -> & L & F). exists l. split; [reflexivity|]. split; [exact L|].
  eapply Forall_impl; [|exact F]. exact IH.
Qed.

Lemma flatten_mem {T} : forall ks (d : nest T) data, nest_flatten ks d = Ok data -> data = nest_mem ks d.
Proof.
  induction ks as [|k ks IH]; intros d data E; [discriminate|]. destruct ks as [|k' ks]; [destruct k; injection E as <-; reflexivity|]. destruct k as [|n].
  - change (nest_flatten (KVec :: k' :: ks) d) with (ls <- mapM (nest_flatten (k' :: ks)) (children d) ;; Ok (concat ls)) in E.
    apply bind_Ok_inv in E as (ls & EM & E). injection E as <-. change (nest_mem (KVec :: k' :: ks) d) with (flat_map (nest_mem (k' :: ks)) (children d)).
    revert ls EM. induction (children d) as [|x l IHl]; intros ls EM; cbn [mapM] in EM; [injection EM as <-; reflexivity|].
    apply bind_Ok_inv in EM as (y & EY & EM). apply bind_Ok_inv in EM as (ys & EYS & EM). injection EM as <-. cbn [concat flat_map].
    rewrite (IH _ _ EY), (IHl _ EYS). reflexivity.
  - change (nest_flatten (KArr n :: k' :: ks) d) with (s <- nest_shape (KArr n :: k' :: ks) d ;;
      if forallb is_arr (k' :: ks) && (length (nest_mem (KArr n :: k' :: ks) d) =? prod s) then Ok (nest_mem (KArr n :: k' :: ks) d) else @Oob (list T)) in E.
    apply bind_Ok_inv in E as (s & _ & E). destruct (_ && _); [congruence|discriminate].
Qed.

Theorem C04_accepted_is_rectangular_partial : forall T (h h' : heap T) ks d m ns r,
  ks = repeat KVec m ++ map KArr ns -> m <= 2 -> typed ks d -> nd_new h ks d = Ok (h', r) ->
  rect (a_shape r) d /\ length (a_shape r) = length ks /\ 0 < prod (a_shape r).
Proof.
  intros T h h' ks d m ns r EK M TY E. unfold nd_new in E.
  apply bind_Ok_inv in E as (b & EC & E). destruct b; [|discriminate]. cbn [guard bind] in E.
  apply bind_Ok_inv in E as (s & ES & E). apply bind_Ok_inv in E as (data & EF & E). apply flatten_mem in EF.
  destruct (length data =? 0) eqn:EZ; [discriminate|]. cbn [negb guard bind from_buffer alloc] in E. injection E as <- <-. cbn [a_shape fresh_arr].
  apply Nat.eqb_neq in EZ.
  enough (exists sh, rect sh d /\ length sh = length ks) as (sh & R & L).
  { pose proof (rect_mem_length ks d sh TY R L) as LM. rewrite <- EF in LM.
    assert (P : 0 < prod sh) by lia. rewrite (rect_shape ks d sh TY R L P) in ES. injection ES as <-. auto. }
  destruct m as [|[|[|m]]]; [| | |lia]; cbn [repeat app] in EK; subst ks.
  - exists ns. split; [now apply arrs_rect|now rewrite map_length].
  - destruct TY as (l & -> & F). exists (length l :: ns). split; [|cbn [length]; now rewrite map_length].
    exists l. split; [reflexivity|]. split; [reflexivity|]. eapply Forall_impl; [|exact F]. apply arrs_rect.
  - destruct TY as (l & -> & F). cbn [check_homogenous children] in EC. apply bind_Ok_inv in EC as (x & EX & EC). apply bind_Ok_inv in EC as (s1 & ES1 & EC).
    pose proof (allM_inv _ _ EC) as AL. cbv beta in AL.
    assert (HD : forall y, In y l -> exists ly, y = Node ly /\ Forall (typed (map KArr ns)) ly /\ hd_error s1 = Some (length ly)).
    { intros y I. rewrite Forall_forall in F. destruct (F y I) as (ly & -> & FL). exists ly. split; [reflexivity|]. split; [exact FL|].
      specialize (AL _ I). apply bind_Ok_inv in AL as (s2 & ES2 & E2). destruct (list_eq_dec Nat.eq_dec s2 s1) as [->|]; [|discriminate].
      destruct ns as [|n ns]; [cbn [map nest_shape children] in ES2; injection ES2 as <-; reflexivity|].
      change (nest_shape (KVec :: map KArr (n :: ns)) (Node ly)) with (z <- vget ly 0 ;; s <- nest_shape (map KArr (n :: ns)) z ;; Ok (length ly :: s)) in ES2.
      apply bind_Ok_inv in ES2 as (z & _ & ES2). apply bind_Ok_inv in ES2 as (s3 & _ & ES2). injection ES2 as <-. reflexivity. }
    destruct s1 as [|n1 s1]; [unfold vget in EX; destruct (nth_error l 0) eqn:N; [|discriminate]; apply nth_error_In, HD in N as (? & _ & _ & ?); discriminate|].
    exists (length l :: n1 :: ns). split; [|cbn [length]; now rewrite map_length]. exists l. split; [reflexivity|]. split; [reflexivity|].
    apply Forall_forall. intros y I. destruct (HD y I) as (ly & -> & FL & H1). injection H1 as H1. exists ly. split; [reflexivity|]. split; [now symmetry|].
    eapply Forall_impl; [|exact FL]. apply arrs_rect.
Qed.
Print Assumptions C04_accepted_is_rectangular_partial.

(** empty data is rejected *)
Theorem C04_empty_panics : forall T (h : heap T) m, 0 < m -> nd_new h (repeat KVec m) (Node []) = Panic.
Proof. intros T h [|[|m]] M; [lia|reflexivity|reflexivity]. Qed.
Print Assumptions C04_empty_panics.

(** *** C04 fails at three Vec levels: only first children are compared, so
    vec![vec![vec![1, 2], vec![3]], vec![vec![4, 5], vec![6]]] is accepted with shape [2, 2, 2],
    and its last element lies outside the six-element buffer. *)
Definition ragged3 : nest nat := Node [Node [Node [Leaf 1; Leaf 2]; Node [Leaf 3]]; Node [Node [Leaf 4; Leaf 5]; Node [Leaf 6]]].
Theorem C04_ragged_refuted : exists h' r, typed [KVec; KVec; KVec] ragged3 /\ ~ (exists sh, rect sh ragged3) /\
  nd_new [] [KVec; KVec; KVec] ragged3 = Ok (h', r) /\ a_shape r = [2; 2; 2] /\ get h' r [0; 1; 1] = Ok 4 /\ get h' r [1; 1; 1] = Oob.
Proof.
  eexists _, _. split; [|split; [|vm_compute; repeat split]].
  - cbn. unfold ragged3. repeat (eexists; try reflexivity; repeat constructor).
  - intros (sh & R). destruct sh as [|a [|b [|c sh]]]; cbn [rect] in R; unfold ragged3 in R.
    + destruct R as (x & E). discriminate.
    + destruct R as (l & E & _ & F). injection E as <-. destruct (Forall_inv F) as (x & E). discriminate.
    + destruct R as (l & E & _ & F). injection E as <-. destruct (Forall_inv F) as (l' & E & _ & F'). injection E as <-. destruct (Forall_inv F') as (x & E). discriminate.
    + destruct R as (l & E & _ & F). injection E as <-. destruct (Forall_inv F) as (l' & E & _ & F'). injection E as <-.
      destruct (Forall_inv F') as (l1 & E1 & L1 & _). injection E1 as <-. destruct (Forall_inv (Forall_inv_tail F')) as (l2 & E2 & L2 & _). injection E2 as <-.
      cbn in L1, L2. congruence.
Qed.
Print Assumptions C04_ragged_refuted.

(** *** C04 fails for a fixed-size array of Vecs: [vec![1, 2], vec![3, 4]] is rectangular, but
    its memory is two Vec headers, which are read as elements. *)
Definition arr_of_vec : nest nat := Node [Node [Leaf 1; Leaf 2]; Node [Leaf 3; Leaf 4]].
Theorem C04_array_of_vec_refuted : typed [KArr 2; KVec] arr_of_vec /\ rect [2; 2] arr_of_vec /\ nd_new [] [KArr 2; KVec] arr_of_vec = Oob.
Proof. split; [|split; [|reflexivity]]; unfold arr_of_vec; cbn; repeat (eexists; try reflexivity; repeat constructor). Qed.
Print Assumptions C04_array_of_vec_refuted.

(** concrete cases *)
Example C04_case : vecs_outside [KVec; KArr 2] /\ typed [KVec; KArr 2] arr_of_vec /\ rect [2; 2] arr_of_vec /\
  exists h' r, nd_new [] [KVec; KArr 2] arr_of_vec = Ok (h', r) /\ get h' r [1; 0] = Ok 3.
Proof.
  split; [exists 1, [2]; reflexivity|]. split; [|split]; [unfold arr_of_vec; cbn; repeat (eexists; try reflexivity; repeat constructor)..|].
  eexists _, _. split; reflexivity.
Qed.
Example C04_ragged2_case : nd_new [] [KVec; KVec] (Node [Node [Leaf 1; Leaf 2]; Node [Leaf 3]]) = Panic.
Proof. reflexivity. Qed.
