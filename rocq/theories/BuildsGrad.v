(** BuildsGrad.v: the differentiation engine compiled with any combination of the features
    neon_simd, blas and apple_vdsp.  The engine (src/autograd, src/tensor) has no cfg attributes
    of its own: it calls the operators of NdArray, and these are the functions chosen in
    Builds.v.  The code of Autograd.v is repeated with those operators as parameters; that it
    is the same code is [kbw_portable] and [krun_portable] in BuildsGradFacts.v. *)
From Coq Require Import List Arith Bool ZArith.
From Verif Require Import Base Layout Views Kernels Access Reduce Einsum SpecGrad Autograd Builds.
Import ListNotations.
Open Scope res_scope.

(** the operators on arrays that the engine uses *)
Record kern (T : Type) := mkKern {
  k_bin : bop -> heap T -> arr -> arr -> res (heap T * arr);
  k_scal : bop -> heap T -> arr -> T -> res (heap T * arr);
  k_neg : heap T -> arr -> res (heap T * arr);
  k_dot : heap T -> arr -> arr -> res (heap T * arr);
  k_matmul : heap T -> arr -> arr -> res (heap T * arr);
  k_bmm : heap T -> arr -> arr -> res (heap T * arr);
  k_add : heap T -> arr -> arr -> res (heap T) }.
Arguments mkKern {T}. Arguments k_bin {T}. Arguments k_scal {T}. Arguments k_neg {T}. Arguments k_dot {T}.
Arguments k_matmul {T}. Arguments k_bmm {T}. Arguments k_add {T}.

Section Choice.
  Context {T : Type} (N : num T).
  Definition arith_of (o : bop) : arith := match o with BAdd => AAdd | BSub => ASub | BMul => AMul | BDiv => ADiv end.
  Definition nop (o : arith) : T -> T -> T :=
    match o with AAdd => nadd N | ASub => nsub N | AMul => nmul N | ADiv => ndiv N end.
  (** without features: the operators of Autograd.v *)
  Definition plain_kern : kern T :=
    mkKern (a_bin N) (a_scal N) (a_neg N) (a_dot N) (a_matmul N) (a_bmm N) (nd_assign (lift2 (nadd N))).
  (** with the features of [B]: Builds.v *)
  Definition built (B : @build T) : kern T :=
    mkKern (fun o => bk_binary (n0 N) nop B (arith_of o)) (fun o => bk_scalar_op (n0 N) nop B (arith_of o))
      (bk_neg (n0 N) (nneg N) B) (bk_nd_dot (n0 N) nop B) (bk_matmul (n0 N) (n1 N) nop B)
      (bk_bmm (n0 N) (n1 N) nop B) (bk_assign nop B AAdd).
End Choice.

Section Engine.
  Context {T : Type} (N : num T) (K : kern T).

  Variable leaves : list arr.      (* AccumulateGrad.gradient of each leaf *)
  Variable nodes : list (gnode T).

  (** GradientFuncTrait::backward: [bw] of Autograd.v, line for line, with the operators of [K].
      reduce_gradient uses sum_along (src/ndarray/reduce.rs 78-96, 129-131), which no feature
      replaces. *)
  Fixpoint kbw (fuel : nat) (busy : list nat) (h : heap T) (r : nref) (g : arr) {struct fuel} : res (heap T) :=
    match fuel with
    | O => Oob
    | S fuel' =>
        match r with
        | RNone => Ok h                                              (* none_backwards.rs 12 *)
        | RLeaf k =>                                                 (* accumulate_grad.rs 23-28 *)
            match nth_error leaves k with
            | None => Oob
            | Some a =>
                if list_eqb (a_shape a) (a_shape g) then k_add K h a g else Oob
            end
        | RNode m =>
            if existsb (Nat.eqb m) busy then Panic
            else
              let rec h r g := kbw fuel' (m :: busy) h r g in
              match nth_error nodes m with
              | None => Oob
              | Some (NAdd x y sx sy) =>                             (* add_backwards.rs 24-27 *)
                  h1 <- call_next_shape N rec h (fun h => Ok (h, g)) sx x ;;
                  call_next_shape N rec h1 (fun h => Ok (h, g)) sy y
              | Some (NSub x y sx sy) =>                             (* sub_backwards.rs 17-20 *)
                  h1 <- call_next_shape N rec h (fun h => Ok (h, g)) sx x ;;
                  call_next_shape N rec h1 (fun h => k_neg K h g) sy y
              | Some (NMul x y l r) =>                               (* mul_backwards.rs 24-30 *)
                  h1 <- call_next_shape N rec h (fun h => k_bin K BMul h r g) (a_shape l) x ;;
                  call_next_shape N rec h1 (fun h => k_bin K BMul h l g) (a_shape r) y
              | Some (NMulS x sh c) =>                               (* mul_backwards.rs 34-37 *)
                  call_next_shape N rec h (fun h => k_scal K BMul h g c) sh x
              | Some (NDiv x y l r) =>                               (* div_backwards.rs 23-35 *)
                  if is_none x then
                    call_next_shape N rec h (fun h =>
                      r1 <- k_neg K h l ;; let '(h1, nl) := r1 in
                      r2 <- k_bin K BMul h1 g nl ;; let '(h2, p) := r2 in
                      r3 <- k_bin K BMul h2 r r ;; let '(h3, q) := r3 in
                      k_bin K BDiv h3 p q) (a_shape r) y
                  else
                    r1 <- nd_scalar h (n1 N) ;; let '(h1, one) := r1 in
                    r2 <- k_bin K BDiv h1 one r ;; let '(h2, rcp) := r2 in
                    r3 <- k_bin K BMul h2 g rcp ;; let '(h3, lg) := r3 in
                    h4 <- call_next_shape N rec h3 (fun h => Ok (h, lg)) (a_shape l) x ;;
                    call_next_shape N rec h4 (fun h =>
                      r1 <- k_bin K BDiv h lg r ;; let '(h1, p) := r1 in
                      r2 <- k_neg K h1 l ;; let '(h2, nl) := r2 in
                      k_bin K BMul h2 p nl) (a_shape r) y
              | Some (NDivS x sh c) =>                               (* div_backwards.rs 39-42 *)
                  r1 <- k_scal K BMul h g c ;; let '(h1, g1) := r1 in
                  call_next_shape N rec h1 (fun h => Ok (h, g1)) sh x
              | Some (NNeg x sh) =>                                  (* neg_backwards.rs 13-15 *)
                  call_next_shape N rec h (fun h => k_neg K h g) sh x
              | Some (NDot x y l r) =>                               (* dot_backwards.rs 16-22 *)
                  h1 <- call_next rec h (fun h => k_bin K BMul h r g) x ;;
                  call_next rec h1 (fun h => k_bin K BMul h l g) y
              | Some (NMatVec x y mat vec) =>                        (* matrix_vec_backwards.rs 16-22 *)
                  h1 <- call_next rec h (fun h => u <- nd_unsqueeze ByRef g 1 ;; k_bin K BMul h u vec) x ;;
                  call_next rec h1 (fun h => mt <- nd_T ByRef mat ;; k_matmul K h mt g) y
              | Some (NMatMul x y l r) =>                            (* matrix_product_backwards.rs 16-22 *)
                  h1 <- call_next rec h (fun h => rt <- nd_T ByRef r ;; k_matmul K h g rt) x ;;
                  call_next rec h1 (fun h => lt <- nd_T ByRef l ;; k_matmul K h lt g) y
              | Some (NBmm x y l r) =>                               (* bmm_backwards.rs 16-22 *)
                  h1 <- call_next rec h (fun h => rt <- nd_transpose ByRef r 1 2 ;; k_bmm K h g rt) x ;;
                  call_next rec h1 (fun h => lt <- nd_transpose ByRef l 1 2 ;; k_bmm K h lt g) y
              | Some (NReshape x sh) =>                              (* reshape_backwards.rs 13-16 *)
                  call_next rec h (fun h => v <- nd_reshape ByRef g sh ;; Ok (h, v)) x
              | Some (NTrans x a1 a2) =>                             (* transpose_backwards.rs 14-17 *)
                  call_next rec h (fun h => v <- nd_transpose ByRef g a1 a2 ;; Ok (h, v)) x
              end
        end
    end.

End Engine.

Section Program.
  Context {T : Type} (N : num T) (K : kern T).

  Definition krun_bw (s : gstate) (h : heap T) (y : tensor) (g : arr) : res gstate :=
    h' <- kbw N K (g_leaves s) (g_nodes s) (S (length (g_nodes s))) [] h (t_fn y) g ;;
    Ok (mkG h' (g_leaves s) (g_nodes s) (g_ts s)).

  (** [exec] and [run] of Autograd.v, line for line, with the operators of [K] *)
  Definition kexec (s : gstate) (i : instr T) : res gstate :=
    match i with
    | INew sh data =>
        r <- new_array (g_heap s) sh data ;; let '(h, a) := r in
        Ok (mkG h (g_leaves s) (g_nodes s) (g_ts s ++ [mkT a false RNone]))
    | ISetGrad i b =>                                    (* set_requires_grad: src/tensor/autograd.rs 57-74 *)
        x <- vget (g_ts s) i ;;
        match t_rg x, b with
        | false, true =>
            r <- nd_full (g_heap s) (n0 N) (a_shape (t_arr x)) ;; let '(h, g) := r in
            ts <- vset (g_ts s) i (mkT (t_arr x) true (RLeaf (length (g_leaves s)))) ;;
            Ok (mkG h (g_leaves s ++ [g]) (g_nodes s) ts)
        | true, false =>
            ts <- vset (g_ts s) i (mkT (t_arr x) false RNone) ;;
            Ok (mkG (g_heap s) (g_leaves s) (g_nodes s) ts)
        | _, _ => Ok s
        end
    | INeg i =>                                          (* src/tensor/ops.rs 21-26 *)
        x <- vget (g_ts s) i ;;
        r <- k_neg K (g_heap s) (t_arr x) ;; let '(h, a) := r in
        Ok (push_op s h a (t_rg x) (NNeg (t_fn x) (a_shape (t_arr x))))
    | IBin o i j =>                                      (* src/tensor/ops.rs 52-57 *)
        x <- vget (g_ts s) i ;; y <- vget (g_ts s) j ;;
        r <- k_bin K o (g_heap s) (t_arr x) (t_arr y) ;; let '(h, a) := r in
        Ok (push_op s h a (t_rg x || t_rg y) (bnode o x y))
    | IScal o i c =>                                     (* src/tensor/ops.rs 69-74 *)
        x <- vget (g_ts s) i ;;
        r <- k_scal K o (g_heap s) (t_arr x) c ;; let '(h, a) := r in
        match o with
        | BAdd | BSub => Ok (push_same s h a x)
        | BMul => Ok (push_op s h a (t_rg x) (NMulS (t_fn x) (a_shape (t_arr x)) c))
        | BDiv => Ok (push_op s h a (t_rg x) (NDivS (t_fn x) (a_shape (t_arr x)) (ndiv N (n1 N) c)))
        end
    | IDot i j =>                                        (* src/tensor/matrix_ops.rs 23-30 *)
        x <- vget (g_ts s) i ;; y <- vget (g_ts s) j ;;
        r <- k_dot K (g_heap s) (t_arr x) (t_arr y) ;; let '(h, a) := r in
        Ok (push_op s h a (t_rg x || t_rg y) (NDot (t_fn x) (t_fn y) (t_arr x) (t_arr y)))
    | IMatmul i j =>                                     (* src/tensor/matrix_ops.rs 62-83 *)
        x <- vget (g_ts s) i ;; y <- vget (g_ts s) j ;;
        let nx := length (a_shape (t_arr x)) in let ny := length (a_shape (t_arr y)) in
        if (nx =? 1) && (ny =? 1) then
          r <- k_dot K (g_heap s) (t_arr x) (t_arr y) ;; let '(h, a) := r in
          Ok (push_op s h a (t_rg x || t_rg y) (NDot (t_fn x) (t_fn y) (t_arr x) (t_arr y)))
        else
          r <- k_matmul K (g_heap s) (t_arr x) (t_arr y) ;; let '(h, a) := r in
          if t_rg x || t_rg y then
            if (nx =? 2) && (ny =? 1) then Ok (push_op s h a true (NMatVec (t_fn x) (t_fn y) (t_arr x) (t_arr y)))
            else if (nx =? 2) && (ny =? 2) then Ok (push_op s h a true (NMatMul (t_fn x) (t_fn y) (t_arr x) (t_arr y)))
            else Panic
          else Ok (push_op s h a false (NMatMul (t_fn x) (t_fn y) (t_arr x) (t_arr y)))
    | IBmm i j =>                                        (* src/tensor/matrix_ops.rs 103-110 *)
        x <- vget (g_ts s) i ;; y <- vget (g_ts s) j ;;
        r <- k_bmm K (g_heap s) (t_arr x) (t_arr y) ;; let '(h, a) := r in
        Ok (push_op s h a (t_rg x || t_rg y) (NBmm (t_fn x) (t_fn y) (t_arr x) (t_arr y)))
    | IView m i =>
        x <- vget (g_ts s) i ;;
        r <- via_array m (fun m a => Ok (nd_view m a)) (g_heap s) (t_arr x) ;; let '(h, a) := r in
        Ok (push_same s h a x)
    | IReshape m i sh =>                                 (* src/common/reshape.rs 55-77 *)
        x <- vget (g_ts s) i ;;
        if list_eqb sh (a_shape (t_arr x)) then
          r <- via_array m (fun m a => Ok (nd_view m a)) (g_heap s) (t_arr x) ;; let '(h, a) := r in
          Ok (push_same s h a x)
        else
          r <- via_strides m (fun m a => nd_reshape m a sh) (g_heap s) (t_arr x) ;; let '(h, a) := r in
          Ok (push_op s h a (t_rg x) (NReshape (t_fn x) (a_shape (t_arr x))))
    | ISqueeze m i =>                                    (* src/common/reshape.rs 96-106 *)
        x <- vget (g_ts s) i ;;
        r <- via_strides m (fun m a => Ok (nd_squeeze m a)) (g_heap s) (t_arr x) ;; let '(h, a) := r in
        Ok (push_op s h a (t_rg x) (NReshape (t_fn x) (a_shape (t_arr x))))
    | IUnsqueeze m i axis =>                             (* src/common/reshape.rs 126-141 *)
        x <- vget (g_ts s) i ;;
        r <- via_strides m (fun m a => nd_unsqueeze m a axis) (g_heap s) (t_arr x) ;; let '(h, a) := r in
        Ok (push_op s h a (t_rg x) (NReshape (t_fn x) (a_shape (t_arr x))))
    | ITranspose m i a1 a2 =>
        x <- vget (g_ts s) i ;;
        r <- via_array m (fun m a => nd_transpose m a a1 a2) (g_heap s) (t_arr x) ;; let '(h, a) := r in
        Ok (push_op s h a (t_rg x) (NTrans (t_fn x) a1 a2))
    | IBackward i =>                                     (* backward: src/tensor/autograd.rs 177-179 *)
        y <- vget (g_ts s) i ;;
        r <- nd_full (g_heap s) (n1 N) (a_shape (t_arr y)) ;; let '(h, g) := r in
        krun_bw s h y g
    | IBackwardWith i sd =>                              (* backward_with: lines 152-157 *)
        y <- vget (g_ts s) i ;;
        r <- seed_arr s sd ;; let '(h, g) := r in
        _ <- guard (list_eqb (a_shape g) (a_shape (t_arr y))) ;;
        krun_bw s h y g
    | IZeroGrad i =>                                     (* zero_gradient: lines 126-128 *)
        x <- vget (g_ts s) i ;;
        match t_fn x with
        | RLeaf k =>                                     (* accumulate_grad.rs 34-36 *)
            a <- vget (g_leaves s) k ;;
            h <- nd_fill (g_heap s) a (n0 N) ;;
            Ok (mkG h (g_leaves s) (g_nodes s) (g_ts s))
        | _ => Ok s
        end
    end.

  Fixpoint krun (p : list (instr T)) (s : gstate) : res gstate :=
    match p with
    | [] => Ok s
    | i :: p' => s' <- kexec s i ;; krun p' s'
    end.
End Program.

(** ** What BLAS asks of a tensor program, in terms of the shapes of the reference machine *)
(** a shape without an axis of length 1 (the stride of such an axis is arbitrary, and BLAS
    rejects a leading dimension that is too small) and with a number of elements that a C int
    can hold *)
Definition wide (sh : list nat) : Prop := Forall (le 2) sh /\ (Z.of_nat (prod sh) < 2 ^ 31)%Z.

Section Fine.
  Context {T : Type} (N : num T).
  Local Notation z := (fun _ : list nat => n0 N).
  (** the operands and the result of every matrix product are wide, and the inner dimensions of
      a batched one agree (no assertion checks that before BLAS is called); nothing is asked of
      a build without BLAS *)
  Definition bfine (B : @build T) (s : @sstate T) (i : instr T) : Prop :=
    blas B <> None ->
    match i with
    | IDot i j => forall x y, nth_error (s_ts s) i = Some x -> nth_error (s_ts s) j = Some y -> wide (s_shape x) /\ wide (s_shape y)
    | IMatmul i j => forall x y, nth_error (s_ts s) i = Some x -> nth_error (s_ts s) j = Some y ->
        wide (s_shape x) /\ wide (s_shape y) /\ wide (fst (m_product N (s_shape x) z (s_shape y) z))
    | IBmm i j => forall x y, nth_error (s_ts s) i = Some x -> nth_error (s_ts s) j = Some y ->
        wide (s_shape x) /\ wide (s_shape y) /\ wide (fst (m_batched N (s_shape x) z (s_shape y) z)) /\
        match s_shape x, s_shape y with [q; _; k], [q'; k'; _] => q = q' -> k = k' | _, _ => True end
    | _ => True
    end.
  Fixpoint all_bfine (B : @build T) (p : list (instr T)) (s : @sstate T) : Prop :=
    match p with
    | [] => True
    | i :: p' => bfine B s i /\ all_bfine B p' (sstep N s i)
    end.
End Fine.
