(** Statements of the property theorems for element-wise algorithms. *)
From Coq Require Import Reals List Arith Bool Lia Lra.
From Verif Require Import Base.Outcome Base.OutcomeFacts Base.Alias Base.Cplx Model.Algorithm Spec.Views Proof.AlgorithmProof.
Import ListNotations.

Lemma split_fma : forall xre xim yre yim zre zim ore oim n mem,
  fma_layout xre xim yre yim zre zim ore oim n (length mem) ->
  exists mem', split_multiply_add xre xim yre yim zre zim ore oim n mem = Ok mem' /\
    fma_done xre xim yre yim zre zim ore oim n mem mem'.
Proof.
  intros xre xim yre yim zre zim ore oim n mem [B [H1 [H2 [A B']]]].
  destruct (split_multiply_add_ok xre xim yre yim zre zim ore oim n mem) as [m [E F]];
    try (apply B; simpl; tauto); try (apply A; simpl; tauto); try (apply B'; simpl; tauto); auto.
  exists m. split; auto. apply fma_upto_fma. auto.
Qed.

Lemma simd_fma : forall inc xre xim yre yim zre zim ore oim n mem, 0 < inc ->
  fma_layout xre xim yre yim zre zim ore oim n (length mem) ->
  exists mem', simd_multiply_add inc xre xim yre yim zre zim ore oim n mem = Ok mem' /\
    fma_done xre xim yre yim zre zim ore oim n mem mem'.
Proof.
  intros inc xre xim yre yim zre zim ore oim n mem Hinc [B [H1 [H2 [A B']]]].
  destruct (simd_multiply_add_ok xre xim yre yim zre zim ore oim n mem) with (inc := inc) as [m [E F]];
    try (apply B; simpl; tauto); try (apply A; simpl; tauto); try (apply B'; simpl; tauto); auto.
  exists m. split; auto. apply fma_upto_fma. auto.
Qed.

(** Two memories with the same result cells and frame are equal. *)
Lemma fma_done_unique : forall xre xim yre yim zre zim ore oim n mem m1 m2,
  fma_done xre xim yre yim zre zim ore oim n mem m1 -> fma_done xre xim yre yim zre zim ore oim n mem m2 -> m1 = m2.
Proof.
  intros xre xim yre yim zre zim ore oim n mem m1 m2 [L1 [V1 F1]] [L2 [V2 F2]].
  apply (list_eq_nth _ 0%R). { lia. } intros l Hl.
  destruct (le_lt_dec ore l) as [G1|G1].
  - destruct (lt_dec (l - ore) n) as [G2|G2].
    + specialize (V1 _ G2). specialize (V2 _ G2). rewrite <- V2 in V1. unfold at_split in V1. inversion V1.
      replace (ore + (l - ore)) with l in * by lia. auto.
    + destruct (le_lt_dec oim l) as [G3|G3]; [destruct (lt_dec (l - oim) n) as [G4|G4]|].
      * specialize (V1 _ G4). specialize (V2 _ G4). rewrite <- V2 in V1. unfold at_split in V1. inversion V1.
        replace (oim + (l - oim)) with l in * by lia. auto.
      * rewrite F1, F2; auto; intros; lia.
      * rewrite F1, F2; auto; intros; lia.
  - destruct (le_lt_dec oim l) as [G3|G3]; [destruct (lt_dec (l - oim) n) as [G4|G4]|].
    * specialize (V1 _ G4). specialize (V2 _ G4). rewrite <- V2 in V1. unfold at_split in V1. inversion V1.
      replace (oim + (l - oim)) with l in * by lia. auto.
    * rewrite F1, F2; auto; intros; lia.
    * rewrite F1, F2; auto; intros; lia.
Qed.

Lemma simd_equals_scalar : forall inc xre xim yre yim zre zim ore oim n mem, 0 < inc ->
  fma_layout xre xim yre yim zre zim ore oim n (length mem) ->
  simd_multiply_add inc xre xim yre yim zre zim ore oim n mem = split_multiply_add xre xim yre yim zre zim ore oim n mem.
Proof.
  intros. destruct (split_fma _ _ _ _ _ _ _ _ _ _ H0) as [m1 [E1 F1]].
  destruct (simd_fma inc _ _ _ _ _ _ _ _ _ _ H H0) as [m2 [E2 F2]]. rewrite E1, E2. f_equal.
  eapply fma_done_unique; eauto.
Qed.

(** Six separate arrays laid out one after another, accumulating in place. *)
Lemma layout_in_place : forall n, fma_layout 0 n (2 * n) (3 * n) (4 * n) (5 * n) (4 * n) (5 * n) n (6 * n).
Proof.
  intros n. unfold fma_layout, aligned, apart. split; [|split; [|split; [|split]]].
  - intros p H. simpl in H. lia.
  - intros. lia.
  - intros. lia.
  - intros p H. simpl in H. destruct (Nat.eq_dec p (4 * n)); auto. right. intros. lia.
  - intros p H. simpl in H. destruct (Nat.eq_dec p (5 * n)); auto. right. intros. lia.
Qed.

(** z.imag being out.real breaks the scalar loop. *)
Lemma crossed_z_wrong : exists mem',
  split_multiply_add 0 1 2 3 4 5 5 4 1 [1; 0; 1; 0; 7; 9]%R = Ok mem' /\
  at_split mem' 5 4 0 = (8, 8)%R /\
  (at_split [1; 0; 1; 0; 7; 9]%R 0 1 0 * at_split [1; 0; 1; 0; 7; 9]%R 2 3 0 + at_split [1; 0; 1; 0; 7; 9]%R 4 5 0)%C = (8, 9)%R.
Proof.
  eexists. split; [reflexivity|]. unfold at_split, Cmul, Cadd. simpl. split; f_equal; ring.
Qed.

Lemma pointwise_unary : forall T (op : T -> T) obj, linalg_unary_op op obj = Ok (map op obj).
Proof. exact linalg_unary_ok. Qed.

Lemma scale_r_ok : forall a l, scale_r a l = Ok (map (fun v => v * a)%R l).
Proof. intros. apply linalg_unary_ok. Qed.
Lemma scale_c_ok : forall a l, scale_c a l = Ok (map (fun v => (RtoC a * v)%C) l).
Proof.
  intros. unfold scale_c. rewrite linalg_unary_ok. f_equal. apply map_ext. intros v.
  apply C_eq; unfold Cscale, Cmul, RtoC; simpl; ring.
Qed.
