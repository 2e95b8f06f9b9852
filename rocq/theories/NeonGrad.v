(** NeonGrad.v: the differentiation engine compiled with neon_simd alone, for element types whose
    fused multiply-add rounds once.  The engine is [krun] of BuildsGrad.v; the operators are those
    of Simd.v with mul_add and vfmaq as a parameter. *)
From Coq Require Import List Arith Lia Bool ZArith QArith Qcanon Floats.SpecFloat.
From Verif Require Import Base Layout Views Kernels Access Reduce Einsum Simd SpecGrad Autograd Numeric NumericFacts FloatErr FloatSum FloatDot
  Param Blackbox BlackboxGrad BlackboxSimd Builds BuildsGrad BlackboxKern SpecCert FloatCert PropsGrad.
Import ListNotations.
Close Scope Qc_scope. Close Scope Q_scope. Open Scope nat_scope.
Open Scope res_scope.

(** the operators that neon_simd replaces: binary_op_add.rs, _sub.rs, _mul.rs, _div.rs and
    unary_ops.rs (src/ops); the matrix products through sum_of_products.rs 237-268 and
    dot_product.rs 61-64.  dot and the matrix-vector product call strided_dot_product, which
    neon_simd alone does not replace (dot_product.rs 32-45, 85, 129). *)
Definition neon_kern {T} (L : nat) (N : num T) (fma : T -> T -> T -> T) : kern T :=
  mkKern (fun o => snd_binary L (bopf N o) (n0 N)) (fun o => snd_scalar_op L (bopf N o) (n0 N)) (snd_unary L (nneg N) (n0 N)) (a_dot N)
    (snd_matmul L (n0 N) (n1 N) (nadd N) (nmul N) fma) (snd_bmm L (n0 N) (n1 N) (nadd N) (nmul N) fma) (snd_assign L (nadd N)).
(** LANES: src/acceleration/simd.rs 105 (f32), 220 (f64) *)
Definition lanes (f : fmt) : nat := if Z.eqb (prec f) 24 then 4 else 2.
Definition neon_float_kern (f : fmt) : kern spec_float := neon_kern (lanes f) (float_num f) (ffma f).

Lemma neon_rel {T U} (R : T -> U -> Prop) L N N' fma fma' : num_rel R N N' True ->
  (forall x x' y y' z z', R x x' -> R y y' -> R z z' -> R (fma x y z) (fma' x' y' z')) -> kern_rel R True (neon_kern L N fma) (neon_kern L N' fma').
Proof.
  intros NR FM.
  assert (OP : forall o x x' y y', R x x' -> R y y' -> R (bopf N o x y) (bopf N' o x' y')) by (intros; now apply (nr_bop _ _ _ _ NR)).
  pose proof (nr_0 _ _ _ _ NR) as Z. pose proof (nr_1 _ _ _ _ NR) as O.
  split; cbn [neon_kern k_bin k_scal k_neg k_dot k_matmul k_bmm k_add]; intros.
  - now apply (bv_nd_binary R L _ _ (OP o)).
  - now apply (bv_nd_scalar_op R L _ _ (OP o)).
  - apply (bv_nd_unary R L); auto. apply (nr_neg _ _ _ _ NR).
  - now apply (bg_dot R N N' True NR).
  - now apply (bv_nd_matmul R L _ _ _ _ _ _ _ _ _ _ Z O (OP BAdd) (OP BMul) FM).
  - now apply (bv_nd_bmm R L _ _ _ _ _ _ _ _ _ _ Z O (OP BAdd) (OP BMul) FM).
  - now apply (bv_nd_assign R L _ _ (OP BAdd)).
Qed.

(** with the unfused operation: the build of Builds.v *)
Definition neon_build {T} (L : nat) : @build T := mkBuild (Some L) None None false.
Lemma neon_built_matmul {T} (N : num T) L h a b :
  bk_matmul (n0 N) (n1 N) (nop N) (neon_build L) h a b = snd_matmul L (n0 N) (n1 N) (nadd N) (nmul N) (fun x y z => nadd N (nmul N x y) z) h a b.
Proof. 
  unfold bk_matmul, snd_matmul, nd_matmul, bk_matrix_vector. destruct (a_shape a) as [|n [|k [|]]], (a_shape b) as [|m [|k2 [|]]]; try reflexivity.
Qed.
Lemma neon_built_rel {T U} (R : T -> U -> Prop) L N N' fma : num_rel R N N' True ->
  (forall x x' y y' z z', R x x' -> R y y' -> R z z' -> R (fma x y z) (nadd N' (nmul N' x' y') z')) -> kern_rel R True (neon_kern L N fma) (built N' (neon_build L)).
Proof.
  intros NR FM. destruct (neon_rel R L N N' fma (fun x y z => nadd N' (nmul N' x y) z) NR FM) as [K1 K2 K3 K4 K5 K6 K7].
  split; cbn [built k_bin k_scal k_neg k_dot k_matmul k_bmm k_add]; intros.
  - destruct o; exact (K1 _ _ _ _ _ H H0).
  - destruct o; exact (K2 _ _ _ _ _ _ H H0 H1).
  - exact (K3 _ _ _ H).
  - exact (K4 _ _ _ _ H).
  - rewrite neon_built_matmul. exact (K5 _ _ _ _ H).
  - exact (K6 _ _ _ _ H).
  - exact (K7 _ _ _ _ H).
Qed.

Lemma neon_stands f : std f -> kern_rel (stands f) True (neon_float_kern f) (neon_kern (lanes f) (cert_num f) (c_fma f)).
Proof. intros ST. apply neon_rel; [now apply stands_num|]. intros. now apply stands_fma. Qed.
Lemma neon_means f L : kern_rel means True (neon_kern L (cert_num f) (c_fma f)) (built QN (neon_build L)).
Proof.
  apply neon_built_rel; [apply means_num|]. intros x x' y y' z z' <- <- <-. unfold means, c_fma. destruct (c_err x), (c_err y), (c_err z); reflexivity.
Qed.
