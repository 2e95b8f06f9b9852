(** Observe.v: what a program can ask of a tensor besides its elements: is_leaf, requires_grad,
    gradient, detach, value and ==. *)
From Coq Require Import List Arith Lia Bool.
From Verif Require Import Base Layout Views Kernels Access SpecGrad Autograd.
Import ListNotations.
Open Scope res_scope.

Section Observe.
  Context {T : Type} (N : num T).

  (** The state of Autograd.v and, for each tensor, its UserCreated flag
      (src/tensor/constructors.rs 47-67).  Simplification: the flag is kept beside the tensor. *)
  Record ostate := mkO { o_st : gstate (T := T); o_user : list bool }.
  Definition o0 : ostate := mkO g0 [].

  (** Constructors::from_contiguous_owned_buffer (src/tensor/constructors.rs 10-13) sets the
      flag.  from_raw_parts (22-40), which every operator and view ends in, does not.
      set_requires_grad (src/tensor/autograd.rs 57-74) changes RequiresGrad only; backward_with,
      backward and zero_gradient (126-128, 152-157, 177-179) change no flag. *)
  Definition flag_user (us : list bool) (i : instr T) : list bool :=
    match i with
    | INew _ _ => us ++ [true]
    | ISetGrad _ _ | IBackward _ | IBackwardWith _ _ | IZeroGrad _ => us
    | _ => us ++ [false]
    end.
  Definition oexec (s : ostate) (i : instr T) : res ostate :=
    st <- exec N (o_st s) i ;; Ok (mkO st (flag_user (o_user s) i)).
  Fixpoint orun (p : list (instr T)) (s : ostate) : res ostate :=
    match p with
    | [] => Ok s
    | i :: p' => s' <- oexec s i ;; orun p' s'
    end.

  (** requires_grad: src/tensor/autograd.rs 52-54 *)
  Definition t_requires_grad (s : ostate) (j : nat) : res bool :=
    t <- vget (g_ts (o_st s)) j ;; Ok (t_rg t).
  (** is_leaf: src/tensor/autograd.rs 26-32 *)
  Definition t_is_leaf (s : ostate) (j : nat) : res bool :=
    t <- vget (g_ts (o_st s)) j ;; u <- vget (o_user s) j ;;
    Ok (if t_rg t then u else true).
  (** gradient: src/tensor/autograd.rs 104-106 *)
  Definition t_grad (s : ostate) (j : nat) : res (option arr) :=
    t <- vget (g_ts (o_st s)) j ;; Ok (t_gradient (o_st s) t).
  (** detach: src/tensor/autograd.rs 196-198 *)
  Definition t_detach (s : ostate) (j : nat) : res (heap T * arr) :=
    t <- vget (g_ts (o_st s)) j ;; nd_clone (g_heap (o_st s)) (t_arr t).
  (** value: src/tensor/methods.rs 26-28 *)
  Definition t_value (s : ostate) (j : nat) : res T :=
    t <- vget (g_ts (o_st s)) j ;; nd_value (g_heap (o_st s)) (t_arr t).
  (** tensor == tensor: src/tensor/equals.rs 3-7 *)
  Definition t_eq (eqb : T -> T -> bool) (s : ostate) (i j : nat) : res bool :=
    x <- vget (g_ts (o_st s)) i ;; y <- vget (g_ts (o_st s)) j ;;
    nd_eq eqb (g_heap (o_st s)) (t_arr x) (t_arr y).
End Observe.
Arguments mkO {T}. Arguments o_st {T}. Arguments o_user {T}. Arguments o0 {T}.
