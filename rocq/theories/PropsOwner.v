(** PropsOwner.v: ownership of buffers (C39) and memory needed by graphs (C45). *)
From Coq Require Import List Arith Bool ZArith Lia.
From Verif Require Import Base Layout Views Owner OwnerFacts.
Import ListNotations.

(** nothing is left allocated; an empty buffer occupies no memory *)
Definition all_freed (bl : blocks) : Prop := forall b n, nth_error bl b = Some (Some n) -> n = 0.

(** no variable is left *)
Definition all_dropped {A} (vs : list (option A)) : Prop := forall x a, nth_error vs x <> Some (Some a).

Lemma var_some {A} (l : list (option A)) i v : var l i = Some v <-> nth_error l i = Some (Some v).
Proof. unfold var. destruct (nth_error l i); split; congruence. Qed.

(** ** C39 *)
(** Full claim: for every accepted program, [run] is neither BadFree nor BadUse, and when
    all variables have been dropped nothing is left allocated.  The first part holds; the
    second and third fail, and hold without the consuming operations named below. *)

(** No accepted program frees a buffer twice, frees it with the wrong pointer or size, or
    names a variable that is gone. *)
Theorem C39_no_double_free : forall p, accepted p = true ->
  run start p <> BadFree /\ run start p <> NoVar.
Proof.
  intros p A. pose proof (run_keeps (fun _ _ => true) (fun _ _ _ => True)) as K.
  specialize (K ltac:(auto) p [] [] [] ok_start I A).
  change (run ([], []) p) with (run start p) in K.
  destruct (run start p) as [[bl vs]| | | |]; try contradiction; split; discriminate.
Qed.

Definition demo : list instr :=
  [INew [2; 3]; IView 0 (VShape (STranspose 0 1)); IView 1 (VSlice [IUsize 1]); IClone 2; IRead 3;
   IDrop 2; IDrop 1; IMove 0 (SReshape [6]); IRead 4; IIntoVec 3; IDrop 5; IDrop 4].

Example demo_ok : accepted demo = true /\ 
  run start demo = Done ([Some 6; None], [None; None; None; None; None; None]).
Proof. split; vm_compute; reflexivity. Qed.

(** No use after free, for programs that consume only arrays of type NdArray<'static>
    and call data_slice only on views. *)
Theorem C39_no_use_after_free_partial : forall p,
  checks lifetimes_kept [] p = true -> run start p <> BadUse.
Proof.
  intros p C. apply run_anchored with (E := []); auto using ok_start.
  intros [|x] a k bs; discriminate.
Qed.

Example C39_use_ex : checks lifetimes_kept [] demo = true.
Proof. vm_compute. reflexivity. Qed.

(** Consuming a view yields a 'static array; its owner can be dropped first. *)
Theorem C39_use_after_free_refuted : exists p q, accepted (p ++ q) = true /\
  q = [IRead 2] /\ run start (p ++ q) = BadUse /\ exists s, run start p = Done s.
Proof.
  exists [INew [2; 3]; IView 0 (VShape SView); IMove 1 (SReshape [6]); IDrop 0], [IRead 2].
  split; [vm_compute; reflexivity|]. split; [reflexivity|].
  split; [vm_compute; reflexivity|]. eexists. vm_compute. reflexivity.
Qed.

(** The slice returned by data_slice outlives the array. *)
Theorem C39_data_slice_refuted : exists p q, accepted (p ++ q) = true /\
  q = [IRead 1] /\ run start (p ++ q) = BadUse /\ exists s, run start p = Done s.
Proof.
  exists [INew [4]; ISlice 0; IDrop 0], [IRead 1].
  split; [vm_compute; reflexivity|]. split; [reflexivity|].
  split; [vm_compute; reflexivity|]. eexists. vm_compute. reflexivity.
Qed.

(** Nothing leaks, for programs that consume only views. *)
Theorem C39_no_leak_partial : forall p bl vs, checks consumes_views [] p = true ->
  run start p = Done (bl, vs) -> all_dropped vs -> all_freed bl.
Proof.
  intros p bl vs C R D b n H.
  assert (S0 : covered [] [] []) by (intros [|b0] n0; discriminate).
  pose proof (run_keeps consumes_views covered step_covered p [] [] [] ok_start S0 C) as K.
  change (run ([], []) p) with (run start p) in K. rewrite R in K. destruct K as (E & _ & K).
  destruct (K b n) as [?|(x & a & X & _)]; auto; [now apply var_some|].
  apply var_some in X. now apply D in X.
Qed.

Definition demo2 : list instr :=
  [INew [2; 3]; IView 0 (VShape SView); IMove 1 (STranspose 0 1); IClone 2; IDrop 2; IDrop 0; IIntoVec 3; IDrop 4].

Example C39_no_leak_ex : checks consumes_views [] demo2 = true /\
  exists bl vs, run start demo2 = Done (bl, vs) /\ bl = [None; None] /\ all_dropped vs.
Proof.
  split; [vm_compute; reflexivity|]. eexists _, _. split; [vm_compute; reflexivity|]. split; [reflexivity|].
  intros x a H. do 6 (destruct x as [|x]; [discriminate|]). discriminate.
Qed.

(** Once an array that owns a non-empty buffer has been consumed by a reshape, the buffer
    stays allocated whatever happens afterwards. *)
Theorem C39_consumed_buffer_leaks : forall p x o q bl vs a n bl' vs',
  accepted (p ++ IMove x o :: q) = true ->
  run start p = Done (bl, vs) -> nth_error vs x = Some (Some a) -> f_owned (a_fl a) = true ->
  nth_error bl (a_blk a) = Some (Some n) ->
  run start (p ++ IMove x o :: q) = Done (bl', vs') -> nth_error bl' (a_blk a) = Some (Some n).
Proof.
  intros p x o q bl vs a n bl' vs' A R X F B R'. apply var_some in X, B. apply var_some.
  destruct (checks_app _ _ _ _ A) as [_ K]. destruct (K [] [] bl vs ok_start R) as (E & O & C).
  rewrite run_app, R in R'. cbn [obind run] in R'. apply checks_cons in C as (_ & E' & T & C).
  pose proof (step_ok bl vs E _ E' O T) as S. 
  destruct (step (bl, vs) (IMove x o)) as [[bl1 vs1]| | | |] eqn:Q; try discriminate. cbn [obind] in R'.
  assert (D : doomed (a_blk a) n bl1 vs1 E').
  { cbn [step] in Q. unfold look in Q. rewrite X in Q. cbn [obind] in Q.
    destruct (apply_shape ByValue a o) as [r| |] eqn:P; try discriminate. cbn [of_res obind] in Q.
    injection Q as <- <-. split; auto. apply shape_byvalue in P as (_ & _ & P & _).
    intros y d. rewrite var_app. destruct (y =? length (put vs x None)); [congruence|].
    intros Y G Q. apply var_put_same in Y as [N Y]. destruct N. eapply (ok_uniq _ _ _ O); eauto. }
  pose proof (run_keeps (fun _ _ => true) (doomed (a_blk a) n)
    (fun bl vs E i E' bl' vs' O P _ => step_doomed _ _ bl vs E i E' bl' vs' O P) q bl1 vs1 E' S D C) as K2.
  rewrite R' in K2. destruct K2 as (E2 & _ & V & _). exact V.
Qed.

Theorem C39_leak_refuted : exists p bl vs, accepted p = true /\ run start p = Done (bl, vs) /\
  all_dropped vs /\ ~ all_freed bl.
Proof.
  exists [INew [4]; IMove 0 (SReshape [2; 2]); IDrop 1]. eexists _, _.
  split; [vm_compute; reflexivity|]. split; [vm_compute; reflexivity|]. split.
  - intros x a H. do 3 (destruct x as [|x]; [discriminate|]). discriminate.
  - intros H. specialize (H 0 4 eq_refl). discriminate.
Qed.

(** ** C45 *)
(** Full claim: for every accepted program, [tensor_run] is not BadUse. *)

(** backward, like every other use of a tensor, reads only live memory, for programs that
    consume only tensors of type Tensor<'static> and let no view be an operand of a
    multiplication, division, dot, matmul or bmm. *)
Theorem C45_no_use_after_free_partial : forall p,
  tensor_checks views_not_kept [] p = true -> tensor_run tensor_start p <> BadUse.
Proof.
  intros p C. apply tensor_run_rooted with (E := []); auto using tok_start.
  split; [intros [|x] r g k bs a|intros [|x] r g s a]; discriminate.
Qed.

Definition demo3 : list tinstr :=
  [TNew [2; 2]; TGrad 0 true; TNew [2; 2]; TBin BMul 0 1 [2; 2]; TDrop 1; TView 2 (STranspose 0 1);
   TBin BAdd 2 3 [2; 2]; TBin BDiv 4 0 [2; 2]; TDrop 3; TDrop 2; TDrop 4; TBackward 5; TMove 5 (SReshape [4]);
   TBackward 6; TDrop 0].

Example C45_ex : tensor_checks views_not_kept [] demo3 = true /\ exists s, tensor_run tensor_start demo3 = Done s.
Proof. split; [vm_compute; reflexivity|]. eexists. vm_compute. reflexivity. Qed.

(** No accepted program frees a tensor's buffer twice. *)
Theorem C45_no_double_free : forall p, tensor_accepted p = true ->
  tensor_run tensor_start p <> BadFree /\ tensor_run tensor_start p <> NoVar.
Proof. intros p A. apply tensor_run_ok with (E := []); auto using tok_start. Qed.

(** A product keeps the view it was computed from, but not the view's owner. *)
Theorem C45_view_operand_refuted : exists p q, tensor_accepted (p ++ q) = true /\
  q = [TBackward 3] /\ tensor_run tensor_start (p ++ q) = BadUse /\ exists s, tensor_run tensor_start p = Done s.
Proof.
  exists [TNew [2; 2]; TNew [2; 2]; TGrad 1 true; TView 0 (STranspose 0 1); TBin BMul 2 1 [2; 2]; TDrop 2; TDrop 0],
    [TBackward 3].
  split; [vm_compute; reflexivity|]. split; [reflexivity|].
  split; [vm_compute; reflexivity|]. eexists. vm_compute. reflexivity.
Qed.

(** So does a quotient: as divisor of a tracked tensor, and as dividend. *)
Theorem C45_view_quotient_refuted : exists p p' q, tensor_accepted (p ++ q) = true /\ tensor_accepted (p' ++ q) = true /\
  q = [TBackward 3] /\ tensor_run tensor_start (p ++ q) = BadUse /\ tensor_run tensor_start (p' ++ q) = BadUse /\
  (exists s, tensor_run tensor_start p = Done s) /\ exists s, tensor_run tensor_start p' = Done s.
Proof.
  exists [TNew [2; 2]; TNew [2; 2]; TGrad 1 true; TView 0 (STranspose 0 1); TBin BDiv 1 2 [2; 2]; TDrop 2; TDrop 0],
    [TNew [2; 2]; TNew [2; 2]; TGrad 1 true; TView 0 (STranspose 0 1); TBin BDiv 2 1 [2; 2]; TDrop 2; TDrop 0],
    [TBackward 3].
  do 2 (split; [vm_compute; reflexivity|]). split; [reflexivity|].
  do 2 (split; [vm_compute; reflexivity|]). split; eexists; vm_compute; reflexivity.
Qed.

(** into_ndarray and the consuming reshapes turn a view into a 'static value. *)
Theorem C45_consumed_view_refuted : exists p q, tensor_accepted (p ++ q) = true /\
  q = [TRead 2] /\ tensor_run tensor_start (p ++ q) = BadUse /\ exists s, tensor_run tensor_start p = Done s.
Proof.
  exists [TNew [2; 2]; TView 0 SView; TInto 1; TDrop 0], [TRead 2].
  split; [vm_compute; reflexivity|]. split; [reflexivity|].
  split; [vm_compute; reflexivity|]. eexists. vm_compute. reflexivity.
Qed.

Print Assumptions C39_no_double_free.
Print Assumptions C39_no_use_after_free_partial.
Print Assumptions C39_use_after_free_refuted.
Print Assumptions C39_data_slice_refuted.
Print Assumptions C39_no_leak_partial.
Print Assumptions C39_consumed_buffer_leaks.
Print Assumptions C39_leak_refuted.
Print Assumptions C45_no_use_after_free_partial.
Print Assumptions C45_no_double_free.
Print Assumptions C45_view_operand_refuted.
Print Assumptions C45_view_quotient_refuted.
Print Assumptions C45_consumed_view_refuted.
