(** Property theorems C13 and C14: element-wise algorithms.  Vocabulary (safe, inside,
    written, fma_done) in Spec/Views.v. *)
From Coq Require Import Reals List Arith Bool Lia.
From Verif Require Import Base.Outcome Base.Alias Base.Cplx Model.Algorithm Spec.Views.
From Verif Require Import Proof.AlgorithmProof Proof.AlgorithmCorollaries.
Import ListNotations.

(** C13: scalar loop, and vector body plus tail for every lane count. *)
Theorem C13_split_multiply_add : forall xre xim yre yim zre zim ore oim n mem,
  fma_layout xre xim yre yim zre zim ore oim n (length mem) ->
  exists mem', split_multiply_add xre xim yre yim zre zim ore oim n mem = Ok mem' /\
    fma_done xre xim yre yim zre zim ore oim n mem mem'.
Proof. exact split_fma. Qed.

Theorem C13_simd_multiply_add : forall inc xre xim yre yim zre zim ore oim n mem, 0 < inc ->
  fma_layout xre xim yre yim zre zim ore oim n (length mem) ->
  exists mem', simd_multiply_add inc xre xim yre yim zre zim ore oim n mem = Ok mem' /\
    fma_done xre xim yre yim zre zim ore oim n mem mem'.
Proof. exact simd_fma. Qed.

Theorem C13_simd_equals_scalar : forall inc xre xim yre yim zre zim ore oim n mem, 0 < inc ->
  fma_layout xre xim yre yim zre zim ore oim n (length mem) ->
  simd_multiply_add inc xre xim yre yim zre zim ore oim n mem = split_multiply_add xre xim yre yim zre zim ore oim n mem.
Proof. exact simd_equals_scalar. Qed.

(** Interleaved version: the same x*y+z; any operand may be the output. *)
Theorem C13_interleaved_multiply_add : forall x y z out,
  length (contents x out) = length out -> length (contents y out) = length out -> length (contents z out) = length out ->
  multiply_add_c x y z out = Ok (tab (length out) (fun i =>
    nth i (contents x out) C0 * nth i (contents y out) C0 + nth i (contents z out) C0)%C).
Proof. exact multiply_add_c_ok. Qed.

(** The layout requirement is needed: z.imag may not be out.real. *)
Theorem C13_crossed_layout_refuted : exists mem',
  split_multiply_add 0 1 2 3 4 5 5 4 1 [1; 0; 1; 0; 7; 9]%R = Ok mem' /\
  at_split mem' 5 4 0 = (8, 8)%R /\
  (at_split [1; 0; 1; 0; 7; 9]%R 0 1 0 * at_split [1; 0; 1; 0; 7; 9]%R 2 3 0 + at_split [1; 0; 1; 0; 7; 9]%R 4 5 0)%C = (8, 9)%R.
Proof. exact crossed_z_wrong. Qed.

Example C13_example : forall n, fma_layout 0 n (2 * n) (3 * n) (4 * n) (5 * n) (4 * n) (5 * n) n (6 * n).
Proof. exact layout_in_place. Qed.

(** C14: vectors; an operand may be the output. *)
Theorem C14_binary : forall T (op : T -> T -> T) x y out,
  length (contents x out) = length out -> length (contents y out) = length out ->
  linalg_binary_op op x y out = Ok (zip_with op (contents x out) (contents y out)).
Proof. exact linalg_binary_ok. Qed.

Theorem C14_scale : forall a l, scale_r a l = Ok (map (fun v => v * a)%R l).
Proof. exact scale_r_ok. Qed.

Theorem C14_scale_complex : forall a l, scale_c a l = Ok (map (fun v => (RtoC a * v)%C) l).
Proof. exact scale_c_ok. Qed.

Theorem C14_fill : forall T (v : T) obj, fill v obj = Ok (repeat v (length obj)).
Proof. exact fill_ok. Qed.

Theorem C14_copy : forall A B (conv : A -> B) inp out, length inp <= length out ->
  copy conv inp out = Ok (map conv inp ++ skipn (length inp) out).
Proof. exact copy_ok. Qed.

Theorem C14_copy_too_short : forall A B (conv : A -> B) inp out, length out < length inp -> copy conv inp out = UB.
Proof. exact copy_too_short. Qed.

Theorem C14_copy_to_split : forall inp re im, length re = length inp -> length im = length inp ->
  copy_to_split inp (re, im) = Ok (map fst inp, map snd inp).
Proof. exact copy_to_split_ok. Qed.

Theorem C14_copy_from_split : forall re im out, length re = length out -> length im = length out ->
  copy_from_split (re, im) out = Ok (combine re im).
Proof. exact copy_from_split_ok. Qed.

(** C14: strided views and matrices in any layout, inputs overlapping the output only at
    equal positions; every other memory cell keeps its value. *)
Theorem C14_vector_view_binary : forall T (d : T) op x y out mem, u_size x = u_size out ->
  let n := u_size out in
  inside1 x n (length mem) -> inside1 y n (length mem) -> inside1 out n (length mem) ->
  safe1 out out n -> safe1 x out n -> safe1 y out n ->
  exists mem', vec_binary_op op x y out mem = Ok mem' /\
    written1 d out n (fun i => op (nth (at1 x i) mem d) (nth (at1 y i) mem d)) mem mem'.
Proof. exact vec_binary_view. Qed.

Theorem C14_vector_view_unary : forall T (d : T) op obj mem,
  let n := u_size obj in inside1 obj n (length mem) -> safe1 obj obj n ->
  exists mem', vec_unary_op op obj mem = Ok mem' /\
    written1 d obj n (fun i => op (nth (at1 obj i) mem d)) mem mem'.
Proof. exact vec_unary_view. Qed.

Theorem C14_vector_view_copy : forall T (d : T) x out mem, u_size x = u_size out ->
  let n := u_size out in
  inside1 x n (length mem) -> inside1 out n (length mem) -> safe1 out out n -> safe1 x out n ->
  exists mem', vec_copy x out mem = Ok mem' /\ written1 d out n (fun i => nth (at1 x i) mem d) mem mem'.
Proof. exact vec_copy_view. Qed.

Theorem C14_vector_view_multiply_add : forall T (d : T) mul add x y z out mem, u_size x = u_size out ->
  let n := u_size out in
  inside1 x n (length mem) -> inside1 y n (length mem) -> inside1 z n (length mem) -> inside1 out n (length mem) ->
  safe1 out out n -> safe1 x out n -> safe1 y out n -> safe1 z out n ->
  exists mem', vec_multiply_add mul add x y z out mem = Ok mem' /\
    written1 d out n (fun i => add (mul (nth (at1 x i) mem d) (nth (at1 y i) mem d)) (nth (at1 z i) mem d)) mem mem'.
Proof. exact vec_multiply_add_view. Qed.

Theorem C14_matrix_binary : forall T (d : T) op x y out mem, v_rows x = v_rows out -> v_cols x = v_cols out ->
  let r := v_rows out in let c := v_cols out in
  inside2 x r c (length mem) -> inside2 y r c (length mem) -> inside2 out r c (length mem) ->
  safe2 out out r c -> safe2 x out r c -> safe2 y out r c ->
  exists mem', mat_binary_op op x y out mem = Ok mem' /\
    written2 d out r c (fun i j => op (nth (at2 x i j) mem d) (nth (at2 y i j) mem d)) mem mem'.
Proof. exact mat_binary_view. Qed.

Theorem C14_matrix_unary : forall T (d : T) left op obj mem,
  let r := v_rows obj in let c := v_cols obj in
  inside2 obj r c (length mem) -> safe2 obj obj r c ->
  exists mem', mat_unary_op left op obj mem = Ok mem' /\
    written2 d obj r c (fun i j => op (nth (at2 obj i j) mem d)) mem mem'.
Proof. exact mat_unary_view. Qed.

Theorem C14_matrix_copy : forall T (d : T) x out mem, v_rows x = v_rows out -> v_cols x = v_cols out ->
  let r := v_rows out in let c := v_cols out in
  inside2 x r c (length mem) -> inside2 out r c (length mem) -> safe2 out out r c -> safe2 x out r c ->
  exists mem', mat_copy x out mem = Ok mem' /\ written2 d out r c (fun i j => nth (at2 x i j) mem d) mem mem'.
Proof. exact mat_copy_view. Qed.

(** Row-major and column-major matrices meet the requirement, in place. *)
Example C14_example : (forall off r c, safe2 (View2 off r c c 1) (View2 off r c c 1) r c) /\
  (forall off r c, safe2 (View2 off r c 1 r) (View2 off r c 1 r) r c) /\
  mat_binary_op Nat.add (View2 0 2 2 2 1) (View2 4 2 2 1 2) (View2 0 2 2 2 1) [1; 2; 3; 4; 10; 20; 30; 40]
    = Ok [11; 32; 23; 44; 10; 20; 30; 40].
Proof. split. exact row_major_unique. split. exact col_major_unique. reflexivity. Qed.

(** One-dimensional views: every second cell and every third cell of one memory, and an
    output that is one of its own inputs. *)
Example C14_vector_example :
  let mem := [1; 2; 3; 4; 5; 6; 7; 8; 9] in
  let evens := View1 0 3 2 in let thirds := View1 1 3 3 in
  inside1 evens 3 (length mem) /\ inside1 thirds 3 (length mem) /\ safe1 evens evens 3 /\
  safe1 (View1 6 3 1) (View1 6 3 1) 3 /\ ~ safe1 evens thirds 3 /\ safe1 (View1 0 3 2) (View1 1 3 2) 3 /\
  vec_binary_op Nat.add evens (View1 1 3 2) evens mem = Ok [3; 2; 7; 4; 11; 6; 7; 8; 9] /\
  vec_copy (View1 0 3 2) (View1 1 3 2) mem = Ok [1; 1; 3; 3; 5; 5; 7; 8; 9] /\
  vec_multiply_add Nat.mul Nat.add evens evens (View1 6 3 1) (View1 6 3 1) mem = Ok [1; 2; 3; 4; 5; 6; 8; 17; 34].
Proof.
  cbv zeta. unfold inside1, safe1, at1. cbn [u_off u_s length].
  split; [intros; lia|]. split; [intros; lia|]. split; [intros; lia|]. split; [intros; lia|].
  split. { intro H. specialize (H 2 1 ltac:(lia) ltac:(lia) eq_refl). lia. }
  split; [intros; lia|]. repeat split.
Qed.

Print Assumptions C13_split_multiply_add.
Print Assumptions C13_simd_multiply_add.
Print Assumptions C13_simd_equals_scalar.
Print Assumptions C13_interleaved_multiply_add.
Print Assumptions C13_crossed_layout_refuted.
Print Assumptions C14_binary.
Print Assumptions C14_scale.
Print Assumptions C14_scale_complex.
Print Assumptions C14_fill.
Print Assumptions C14_copy.
Print Assumptions C14_copy_too_short.
Print Assumptions C14_copy_to_split.
Print Assumptions C14_copy_from_split.
Print Assumptions C14_vector_view_binary.
Print Assumptions C14_vector_view_unary.
Print Assumptions C14_vector_view_copy.
Print Assumptions C14_vector_view_multiply_add.
Print Assumptions C14_matrix_binary.
Print Assumptions C14_matrix_unary.
Print Assumptions C14_matrix_copy.
