(** Access.v: model of element access, iteration, copies, comparison and fill. *)
From Coq Require Import List Arith Lia Bool ZArith.
From Verif Require Import Base Layout Views Kernels.
Import ListNotations.
Open Scope res_scope.

Section Access.
  Context {T : Type}.

  (** flatiter().collect(): src/ndarray/iterator/flat_iterator.rs 9-23 and
      buffer_iterator.rs 11-41 (a pointer plus a FlatIndexGenerator). *)
  Definition nd_flatiter (h : heap T) (a : arr) : res (list T) :=
    is <- fig_list (a_shape a) (a_stride a) ;;
    mapM (fun i => ld h (padd (a_ptr a) i)) is.

  (** sum of idx * stride over the zip: src/ndarray/index_impl.rs 11-13 *)
  Fixpoint index_offset (idx stride : list nat) : nat :=
    match idx, stride with
    | i :: idx', s :: st => i * s + index_offset idx' st
    | _, _ => 0
    end.

  (** a[[..]]: index_impl.rs 8-17 *)
  Definition nd_index (h : heap T) (a : arr) (idx : list nat) : res T :=
    _ <- guard (length idx =? length (a_shape a)) ;;
    let i := index_offset idx (a_stride a) in
    _ <- guard (i <? a_len a) ;;
    ld h (padd (a_ptr a) i).

  (** a[[..]] = v: index_impl.rs 21-30 (the assertion is <=) *)
  Definition nd_index_set (h : heap T) (a : arr) (idx : list nat) (v : T) : res (heap T) :=
    _ <- guard (length idx <=? length (a_shape a)) ;;
    let i := index_offset idx (a_stride a) in
    _ <- guard (i <? a_len a) ;;
    st h (padd (a_ptr a) i) v.

  (** value: src/ndarray/methods.rs 26-29 *)
  Definition nd_value (h : heap T) (a : arr) : res T :=
    _ <- guard (prod (a_shape a) =? 1) ;; ld h (a_ptr a).

  (** reading n consecutive cells: copy_nonoverlapping / from_raw_parts *)
  Definition read_run (h : heap T) (p : ptr) (n : nat) : res (list T) :=
    mapM (fun k => ld h (padd p k)) (seq 0 n).

  (** data_slice: methods.rs 41-44 *)
  Definition nd_data_slice (h : heap T) (a : arr) : res (list T) :=
    _ <- guard (f_contig (a_fl a)) ;; read_run h (a_ptr a) (a_len a).

  (** the copying loop of clone_data_non_contiguous: src/ndarray/clone.rs 57-60 *)
  Fixpoint copy_runs (h : heap T) (p : ptr) (is : list nat) (n : nat) : res (list T) :=
    match is with
    | [] => Ok []
    | i :: is' => x <- read_run h (padd p i) n ;; y <- copy_runs h p is' n ;; Ok (x ++ y)
    end.

  (** clone_data_non_contiguous: clone.rs 30-64.  set_len(size) after writing a
      different number of cells would expose uninitialised memory: [Oob]. *)
  Definition clone_strided (h : heap T) (a : arr) : res (list T) :=
    let '(sh, str) := collapse (a_shape a) (a_stride a) in
    match str with
    | [] => Panic
    | _ =>
        let last_stride := last str 0 in
        r <- (if last_stride =? 1 then
                is <- fig_list (removelast sh) (removelast str) ;; copy_runs h (a_ptr a) is (last sh 0)
              else is <- fig_list sh str ;; copy_runs h (a_ptr a) is 1) ;;
        if length r =? prod (a_shape a) then Ok r else Oob
    end.

  (** clone_data: clone.rs 13-27 *)
  Definition clone_data (h : heap T) (a : arr) : res (list T) :=
    if f_contig (a_fl a) then read_run h (a_ptr a) (a_len a) else clone_strided h a.

  (** clone: clone.rs 9-11 *)
  Definition nd_clone (h : heap T) (a : arr) : res (heap T * arr) :=
    d <- clone_data h a ;; Ok (from_buffer h (a_shape a) d).

  (** flatten: src/ndarray/reshape.rs 21-25 *)
  Definition nd_flatten (h : heap T) (a : arr) : res (heap T * arr) :=
    d <- clone_data h a ;; Ok (from_buffer h [prod (a_shape a)] d).

  (** zip(..).all(==): src/ndarray/equals.rs 16; zip stops at the shorter side.
      The iterators are run in lock step and abandoned at the first difference. *)
  Fixpoint zip_all (eqb : T -> T -> bool) (h : heap T) (p : ptr) (is : list nat) (q : ptr) (js : list nat)
      : res bool :=
    match is, js with
    | i :: is', j :: js' =>
        x <- ld h (padd p i) ;; y <- ld h (padd q j) ;;
        if eqb x y then zip_all eqb h p is' q js' else Ok false
    | _, _ => Ok true
    end.

  (** a == b: equals.rs 12-17 (5-8 and 20-26 are the same comparison) *)
  Definition nd_eq (eqb : T -> T -> bool) (h : heap T) (a b : arr) : res bool :=
    if list_eqb (a_shape a) (a_shape b) then
      is <- fig_list (a_shape a) (a_stride a) ;;
      js <- fig_list (a_shape b) (a_stride b) ;;
      zip_all eqb h (a_ptr a) is (a_ptr b) js
    else Ok false.

  (** fill_uniform_stride: src/ops/fill.rs 27-32; fill_contiguous (13-15) is stride 1 *)
  Fixpoint fill_uniform (h : heap T) (p : ptr) (count stride : nat) (v : T) : res (heap T) :=
    match count with
    | O => Ok h
    | S c => h' <- st h p v ;; fill_uniform h' (padd p stride) c stride v
    end.

  (** a `for _ in 0..n` loop advancing a pointer by s *)
  Fixpoint loop_ptr (body : heap T -> ptr -> res (heap T)) (h : heap T) (p : ptr) (n s : nat) : res (heap T) :=
    match n with
    | O => Ok h
    | S n' => h' <- body h p ;; loop_ptr body h' (padd p s) n' s
    end.

  (** fill: src/ops/fill.rs 45-60.  shape[1] is only read inside the loop body. *)
  Fixpoint k_fill (h : heap T) (p : ptr) (shape stride : list nat) (len : nat) (v : T) {struct shape}
      : res (heap T) :=
    match has_uniform_stride shape stride with
    | Some s => if s =? 1 then fill_uniform h p len 1 v else fill_uniform h p (prod shape) s v
    | None =>
        match shape, stride with
        | n :: sh', s :: st' =>
            loop_ptr (fun h p =>
                n1 <- vget sh' 0 ;; s1 <- vget st' 0 ;;
                k_fill h p sh' st' (n1 * s1) v) h p n s
        | _, _ => Panic
        end
    end.

  (** fill: src/ndarray/fill.rs 18-20 (zero, 35-37, is fill(false.into())) *)
  Definition nd_fill (h : heap T) (a : arr) (v : T) : res (heap T) :=
    k_fill h (a_ptr a) (a_shape a) (a_stride a) (a_len a) v.
End Access.

(** astype: src/ndarray/astype.rs 7-16; the conversion may panic *)
Definition nd_astype {T F} (conv : T -> res F) (h : heap T) (hF : heap F) (a : arr) : res (heap F * arr) :=
  xs <- nd_flatiter h a ;; ys <- mapM conv xs ;; Ok (from_buffer hF (a_shape a) ys).
