(** Element-wise algorithms: src/neo/algorithm.  Vectors are lists; where aliasing or
    memory layout matters, arrays are strided views into one memory (a list).
    The CBLAS, xsimd and Accelerate variants are not modelled. *)
From Coq Require Import Reals List Arith Bool.
From Verif Require Import Base.Outcome Base.Alias Base.Cplx.
Import ListNotations.

(** ** Vectors as lists *)

(** src/neo/algorithm/backend/linalg_unary_op.hpp:10-19 (rank 1). *)
Definition linalg_unary_op {T} (op : T -> T) (obj : list T) : outcome (list T) :=
  for_range 0 (length obj) (fun i obj => v <- rd obj i ;; wr obj i (op v)) obj.

(** src/neo/algorithm/backend/linalg_binary_op.hpp:13-22 (rank 1); an input may be the
    output itself. *)
Definition linalg_binary_op {T} (op : T -> T -> T) (x y : operand T) (out : list T) : outcome (list T) :=
  for_range 0 (length (contents x out)) (fun i out =>
    a <- rd (contents x out) i ;; b <- rd (contents y out) i ;; wr out i (op a b)) out.

(** src/neo/algorithm/fill.hpp:10-14. *)
Definition fill {T} (val : T) (obj : list T) : outcome (list T) := linalg_unary_op (fun _ => val) obj.

(** src/neo/algorithm/scale.hpp:14-28. *)
Definition scale_r (alpha : R) (obj : list R) : outcome (list R) := linalg_unary_op (fun v => (v * alpha)%R) obj.
Definition scale_c (alpha : R) (obj : list C) : outcome (list C) := linalg_unary_op (fun v => Cscale alpha v) obj.

(** src/neo/algorithm/add.hpp:15-20, multiply.hpp:15-20, complex elements. *)
Definition add_c := @linalg_binary_op C Cadd.
Definition multiply_c := @linalg_binary_op C Cmul.
Definition add_r := @linalg_binary_op R Rplus.
Definition multiply_r := @linalg_binary_op R Rmult.

(** src/neo/algorithm/copy.hpp:18-28 (rank 1); [conv] is the implicit conversion of the
    element type (real to complex, or the identity). *)
Definition copy {A B} (conv : A -> B) (inp : list A) (out : list B) : outcome (list B) :=
  for_range 0 (length inp) (fun i out => v <- rd inp i ;; wr out i (conv v)) out.

(** src/neo/algorithm/copy.hpp:37-47 — interleaved to split complex. *)
Definition copy_to_split (inp : list C) (out : list R * list R) : outcome (list R * list R) :=
  for_range 0 (length inp) (fun i out =>
    v <- rd inp i ;;
    re <- wr (fst out) i (fst v) ;;
    im <- wr (snd out) i (snd v) ;;
    Ok (re, im)) out.

(** src/neo/algorithm/copy.hpp:49-60 — split to interleaved complex.  Simplification: the
    code writes in.extent(0), a member split_complex does not have (the overload does not
    compile when used); the model uses in.real.extent(0). *)
Definition copy_from_split (inp : list R * list R) (out : list C) : outcome (list C) :=
  for_range 0 (length (fst inp)) (fun i out =>
    re <- rd (fst inp) i ;; im <- rd (snd inp) i ;; wr out i (re, im)) out.

(** src/neo/algorithm/multiply_add.hpp:279-301 — complex vectors. *)
Definition multiply_add_c (x y z : operand C) (out : list C) : outcome (list C) :=
  for_range 0 (length (contents x out)) (fun i out =>
    a <- rd (contents x out) i ;; b <- rd (contents y out) i ;; c <- rd (contents z out) i ;;
    wr out i (a * b + c)%C) out.

(** ** Views into one memory *)

(** Rank-2 strided view: element (i, j) lives at off + i * s0 + j * s1 (layout_right:
    s1 = 1, layout_left: s0 = 1, layout_stride and submdspan: anything). *)
Record view2 := View2 { v_off : nat; v_rows : nat; v_cols : nat; v_s0 : nat; v_s1 : nat }.
Definition at2 (v : view2) (i j : nat) : nat := v_off v + i * v_s0 v + j * v_s1 v.

(** Rank-1 strided view. *)
Record view1 := View1 { u_off : nat; u_size : nat; u_s : nat }.
Definition at1 (v : view1) (i : nat) : nat := u_off v + i * u_s v.

(** src/neo/algorithm/backend/linalg_unary_op.hpp:10-34; [left] selects layout_left. *)
Definition mat_unary_op {T} (left : bool) (op : T -> T) (obj : view2) (mem : list T) : outcome (list T) :=
  let body row col mem := v <- rd mem (at2 obj row col) ;; wr mem (at2 obj row col) (op v) in
  if left
  then for_range 0 (v_cols obj) (fun col mem => for_range 0 (v_rows obj) (fun row mem => body row col mem) mem) mem
  else for_range 0 (v_rows obj) (fun row mem => for_range 0 (v_cols obj) (fun col mem => body row col mem) mem) mem.

(** src/neo/algorithm/backend/linalg_binary_op.hpp:13-30 (rank 2). *)
Definition mat_binary_op {T} (op : T -> T -> T) (x y out : view2) (mem : list T) : outcome (list T) :=
  for_range 0 (v_rows x) (fun i mem =>
    for_range 0 (v_cols x) (fun j mem =>
      a <- rd mem (at2 x i j) ;; b <- rd mem (at2 y i j) ;; wr mem (at2 out i j) (op a b)) mem) mem.

(** src/neo/algorithm/copy.hpp:18-35 (rank 2). *)
Definition mat_copy {T} (inp out : view2) (mem : list T) : outcome (list T) :=
  for_range 0 (v_rows inp) (fun i mem =>
    for_range 0 (v_cols inp) (fun j mem =>
      a <- rd mem (at2 inp i j) ;; wr mem (at2 out i j) a) mem) mem.

(** Rank-1 versions of the same functions on strided views. *)
Definition vec_binary_op {T} (op : T -> T -> T) (x y out : view1) (mem : list T) : outcome (list T) :=
  for_range 0 (u_size x) (fun i mem =>
    a <- rd mem (at1 x i) ;; b <- rd mem (at1 y i) ;; wr mem (at1 out i) (op a b)) mem.
Definition vec_unary_op {T} (op : T -> T) (obj : view1) (mem : list T) : outcome (list T) :=
  for_range 0 (u_size obj) (fun i mem => a <- rd mem (at1 obj i) ;; wr mem (at1 obj i) (op a)) mem.
Definition vec_copy {T} (inp out : view1) (mem : list T) : outcome (list T) :=
  for_range 0 (u_size inp) (fun i mem => a <- rd mem (at1 inp i) ;; wr mem (at1 out i) a) mem.

(** src/neo/algorithm/multiply_add.hpp:298-300 on strided views. *)
Definition vec_multiply_add {T} (mul add : T -> T -> T) (x y z out : view1) (mem : list T) : outcome (list T) :=
  for_range 0 (u_size x) (fun i mem =>
    a <- rd mem (at1 x i) ;; b <- rd mem (at1 y i) ;; c <- rd mem (at1 z i) ;;
    wr mem (at1 out i) (add (mul a b) c)) mem.

(** ** Split-complex multiply-add on pointers into one memory *)

(** src/neo/algorithm/multiply_add.hpp:60-68 = 359-367 — one scalar iteration; the z
    components are read after the x and y ones, z.imag after out.real was written. *)
Definition split_fma_scalar (xre xim yre yim zre zim ore oim : nat) (i : nat) (mem : list R)
  : outcome (list R) :=
  a <- rd mem (xre + i) ;; b <- rd mem (xim + i) ;; c <- rd mem (yre + i) ;; d <- rd mem (yim + i) ;;
  e <- rd mem (zre + i) ;;
  mem <- wr mem (ore + i) (a * c - b * d + e)%R ;;
  f <- rd mem (zim + i) ;;
  wr mem (oim + i) (a * d + b * c + f)%R.

(** src/neo/algorithm/multiply_add.hpp:359-367 — scalar loop. *)
Definition split_multiply_add (xre xim yre yim zre zim ore oim size : nat) (mem : list R) : outcome (list R) :=
  for_range 0 size (split_fma_scalar xre xim yre yim zre zim ore oim) mem.

(** Lane-wise register arithmetic. *)
Definition reg_op (f : R -> R -> R) (a b : list R) : list R := zip_with f a b.

(** src/neo/algorithm/multiply_add.hpp:27-69 — simd::detail::multiply_add<Batch>; [inc] is
    the number of lanes. *)
Definition simd_multiply_add (inc : nat) (xre xim yre yim zre zim ore oim size : nat) (mem : list R)
  : outcome (list R) :=
  let vec_size := size - size mod inc in
  mem <- for_step 0 vec_size inc (fun i mem =>
    a <- slice mem (xre + i) (xre + i + inc) ;; b <- slice mem (xim + i) (xim + i + inc) ;;
    c <- slice mem (yre + i) (yre + i + inc) ;; d <- slice mem (yim + i) (yim + i + inc) ;;
    e <- slice mem (zre + i) (zre + i + inc) ;; f <- slice mem (zim + i) (zim + i + inc) ;;
    let out_re := reg_op Rplus (reg_op Rminus (reg_op Rmult a c) (reg_op Rmult b d)) e in
    let out_im := reg_op Rplus (reg_op Rplus (reg_op Rmult a d) (reg_op Rmult b c)) f in
    mem <- splice mem (ore + i) out_re ;;
    splice mem (oim + i) out_im) mem ;;
  for_range vec_size size (split_fma_scalar xre xim yre yim zre zim ore oim) mem.
