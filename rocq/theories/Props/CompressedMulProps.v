(** Property theorems C90: float arrays kept as small integers and multiplied through
    compressed_accessor views.  [unit_float] and [cf_error] are in Spec/CompressedFdl.v. *)
From Coq Require Import Reals List Arith ZArith Lia Lra Bool.
From Flocq Require Import Core.
From Verif Require Import Base.Outcome Base.OutcomeFacts Model.Integers Model.FixedPoint Model.CompressedFdl Model.CompressedMul
  Proof.FixedFloat Spec.CompressedFdl Proof.CompressedFdlProof Proof.CompressedMulProof Props.CompressedFdlProps.
Import ListNotations.
Local Open Scope R_scope.

(** Storing two float arrays of any length with elements in [-1, 1] as integers and multiplying
    the views gives, in every position, the product of the original elements up to
    2 e + e^2 + 2^-23, where e is half a quantisation step plus 2^-22. *)
Theorem C90_product : forall t a b out, t = int8 \/ t = int16 ->
  Forall unit_float a -> Forall unit_float b -> length b = length a -> length out = length a ->
  exists r, cfloat_mul t a b out = Ok r /\ length r = length a /\
    forall i, (i < length a)%nat ->
      Rabs (nth i r 0 - nth i a 0 * nth i b 0) <= 2 * cf_error t + cf_error t ^ 2 + / 2 ^ 23.
Proof.
  intros t a b out Ht Ha Hb Lb Lo. assert (W : (8 <= iwidth t)%Z) by (destruct Ht as [->| ->]; cbn; lia).
  apply small_types in Ht. rewrite Forall_forall in Ha, Hb. unfold cfloat_mul.
  rewrite !store_ok by auto. cbn [bind]. rewrite multiply_ok by (rewrite !map_length; lia).
  eexists. split; [reflexivity|]. rewrite tab_length, map_length. split; [auto|]. intros i Hi. rewrite nth_tab by auto.
  set (f := fun v => ZnearestA (rnd32 (v * cf_max t))).
  rewrite (nth_indep (map f a) 0%Z (f 0)) by (rewrite map_length; auto). rewrite (nth_indep (map f b) 0%Z (f 0)) by (rewrite map_length; lia).
  rewrite !map_nth.
  assert (U1 : unit_float (nth i a 0)) by (apply Ha, nth_In; auto). assert (U2 : unit_float (nth i b 0)) by (apply Hb, nth_In; lia).
  apply product_close; [apply cf_error_small; auto| | |apply U1|apply U2]; apply expand_close; auto.
Qed.

(** The same for complex elements, in the real and in the imaginary part, with the bound doubled. *)
Theorem C90_complex_product : forall t a b out, t = int8 \/ t = int16 ->
  Forall (fun v => unit_float (fst v) /\ unit_float (snd v)) a -> Forall (fun v => unit_float (fst v) /\ unit_float (snd v)) b ->
  length b = length a -> length out = length a ->
  exists r, cfloat_mul_c t a b out = Ok r /\ length r = length a /\
    forall i ar ai br bi, (i < length a)%nat -> nth i a (0, 0) = (ar, ai) -> nth i b (0, 0) = (br, bi) ->
      Rabs (fst (nth i r (0, 0)) - (ar * br - ai * bi)) <= 4 * cf_error t + 2 * cf_error t ^ 2 + / 2 ^ 21 /\
      Rabs (snd (nth i r (0, 0)) - (ar * bi + ai * br)) <= 4 * cf_error t + 2 * cf_error t ^ 2 + / 2 ^ 21.
Proof.
  intros t a b out Ht Ha Hb Lb Lo. assert (W : (8 <= iwidth t)%Z) by (destruct Ht as [->| ->]; cbn; lia).
  apply small_types in Ht. rewrite Forall_forall in Ha, Hb. unfold cfloat_mul_c.
  rewrite !store_c_ok by auto. cbn [bind]. rewrite multiply_c_ok by (rewrite !map_length; lia).
  eexists. split; [reflexivity|]. rewrite tab_length, map_length. split; [auto|]. intros i ar ai br bi Hi Ea Eb. rewrite nth_tab by auto.
  set (f := fun v : R * R => (ZnearestA (rnd32 (fst v * cf_max t)), ZnearestA (rnd32 (snd v * cf_max t)))).
  rewrite (nth_indep (map f a) (0%Z, 0%Z) (f (0, 0))) by (rewrite map_length; auto).
  rewrite (nth_indep (map f b) (0%Z, 0%Z) (f (0, 0))) by (rewrite map_length; lia).
  rewrite !map_nth. assert (U1 := Ha _ (nth_In a (0, 0) Hi)). assert (U2 := Hb (nth i b (0, 0)) ltac:(apply nth_In; lia)).
  rewrite Ea in *. rewrite Eb in *. cbn [fst snd] in U1, U2. destruct U1 as [R1 I1]. destruct U2 as [R2 I2].
  assert (C := cf_error_small t Ht W).
  assert (PC : forall u v, unit_float u -> unit_float v ->
    Rabs (rnd32 (cf_expand t (ZnearestA (rnd32 (u * cf_max t))) * cf_expand t (ZnearestA (rnd32 (v * cf_max t)))) - u * v)
      <= 2 * cf_error t + cf_error t ^ 2 + / 2 ^ 23 /\ Rabs (u * v) <= 1).
  { intros u v Hu Hv. split.
    - apply product_close; auto; try apply expand_close; auto; [apply Hu|apply Hv].
    - rewrite Rabs_mult, <- (Rmult_1_r 1). apply Rmult_le_compat; auto using Rabs_pos; [apply Hu|apply Hv]. }
  unfold f, cmul32. cbn [fst snd]. split.
  - destruct (PC ar br R1 R2) as [P1 P2]. destruct (PC ai bi I1 I2) as [P3 P4].
    match goal with |- Rabs (rnd32 (?x - ?y) - (?u - ?v)) <= ?z => change (Rabs (rnd32 (x + - y) - (u + - v)) <= z) end. apply sum_close; auto.
    + now rewrite Rabs_Ropp.
    + match goal with |- Rabs (- ?x - - ?y) <= _ => replace (- x - - y) with (- (x - y)) by ring end. rewrite Rabs_Ropp. auto.
  - destruct (PC ar bi R1 I2) as [P1 P2]. destruct (PC ai br I1 R2) as [P3 P4]. apply sum_close; auto.
Qed.

(** Every stored integer, the most negative one included, survives being read as a float and
    stored again. *)
Theorem C90_reload : forall t n, t = int8 \/ t = int16 -> fits t n -> cf_compress t (cf_expand t n) = Ok n.
Proof. intros t n Ht. apply small_types in Ht. apply recompress; auto. Qed.

(** A whole array read through the view and stored again is unchanged, so loss happens only the
    first time an array is stored. *)
Theorem C90_reload_array : forall t s, t = int8 \/ t = int16 -> Forall (fits t) s ->
  forall vals, length vals = length s -> (forall i, (i < length s)%nat -> cm_get t s i = Ok (nth i vals 0)) ->
  cm_store t vals = Ok s.
Proof.
  intros t s Ht Hs. unfold cm_store. induction Hs as [|n s Hn Hs IH]; intros vals L H; destruct vals as [|v vals]; try discriminate; auto.
  cbn [mapM]. assert (E := H 0%nat ltac:(simpl; lia)). cbn in E. injection E as E. rewrite <- E. rewrite C90_reload by auto. cbn [bind].
  rewrite (IH vals); auto. intros i Hi. apply (H (S i)). simpl. lia.
Qed.

(** Distinct stored integers read as distinct floats. *)
Theorem C90_distinct : forall t m n, t = int8 \/ t = int16 -> fits t m -> fits t n -> cf_expand t m = cf_expand t n -> m = n.
Proof.
  intros t m n Ht Hm Hn E. assert (E1 := C90_reload t m Ht Hm). rewrite E, (C90_reload t n Ht Hn) in E1. congruence.
Qed.

(** 0.5 * 0.5 and -1 * 1 through int8. *)
Example C90_instance : exists r, cfloat_mul int8 [1 / 2; -1] [1 / 2; 1] [0; 0] = Ok r /\
  Rabs (nth 0 r 0 - 1 / 4) <= 1 / 100 /\ Rabs (nth 1 r 0 + 1) <= 1 / 100.
Proof.
  assert (U : forall n e, (Z.abs n < 2 ^ 24)%Z -> (-149 <= e)%Z -> Rabs (IZR n * bpow radix2 e) <= 1 -> unit_float (IZR n * bpow radix2 e)).
  { intros n e H1 H2 H3. split; auto. apply float32_scaled; auto. }
  assert (U1 : unit_float (1 / 2)).
  { replace (1 / 2) with (IZR 1 * bpow radix2 (-1)) by (cbn; lra). apply U; try lia. cbn. rewrite Rabs_right; lra. }
  assert (U2 : unit_float 1).
  { replace 1 with (IZR 1 * bpow radix2 0) by (cbn; lra). apply U; try lia. cbn. rewrite Rabs_right; lra. }
  assert (U3 : unit_float (-1)).
  { replace (-1) with (IZR (-1) * bpow radix2 0) by (cbn; lra). apply U; try lia. cbn. rewrite Rabs_left; lra. }
  destruct (C90_product int8 [1 / 2; -1] [1 / 2; 1] [0; 0]) as (r & E & L & H); auto.
  exists r. split; [exact E|]. assert (H0 := H 0%nat ltac:(simpl; lia)). assert (H1 := H 1%nat ltac:(simpl; lia)). cbn [nth] in H0, H1.
  destruct C49_error as [C _]. rewrite C in H0, H1.
  assert (B : 2 * (1 / 254 + / 2 ^ 22) + (1 / 254 + / 2 ^ 22) ^ 2 + / 2 ^ 23 <= 1 / 100).
  { replace (2 ^ 22) with 4194304 by (cbn; lra). replace (2 ^ 23) with 8388608 by (cbn; lra). lra. }
  split; [replace (1 / 4) with (1 / 2 * (1 / 2)) by field|replace (nth 1 r 0 + 1) with (nth 1 r 0 - -1 * 1) by ring]; eapply Rle_trans; eauto.
Qed.

(** (1 + i) * (1 - i) = 2 through int16: parts up to 1 are allowed, the product may exceed 1. *)
Example C90_complex_instance : exists r, cfloat_mul_c int16 [(1, 1)] [(1, -1)] [(0, 0)] = Ok r /\
  Rabs (fst (nth 0 r (0, 0)) - 2) <= 1 / 1000 /\ Rabs (snd (nth 0 r (0, 0))) <= 1 / 1000.
Proof.
  assert (U2 : unit_float 1).
  { replace 1 with (IZR 1 * bpow radix2 0) by (cbn; lra). split; [apply float32_scaled; lia|]. cbn. rewrite Rabs_right; lra. }
  assert (U3 : unit_float (-1)).
  { replace (-1) with (IZR (-1) * bpow radix2 0) by (cbn; lra). split; [apply float32_scaled; lia|]. cbn. rewrite Rabs_left; lra. }
  destruct (C90_complex_product int16 [(1, 1)] [(1, -1)] [(0, 0)]) as (r & E & L & H); auto; try (repeat constructor; auto; fail).
  exists r. split; [exact E|]. destruct (H 0%nat 1 1 1 (-1) ltac:(simpl; lia) eq_refl eq_refl) as [H0 H1].
  destruct C49_error as [_ C]. rewrite C in H0, H1.
  assert (B : 4 * (1 / 65534 + / 2 ^ 22) + 2 * (1 / 65534 + / 2 ^ 22) ^ 2 + / 2 ^ 21 <= 1 / 1000).
  { replace (2 ^ 22) with 4194304 by (cbn; lra). replace (2 ^ 21) with 2097152 by (cbn; lra). lra. }
  split.
  - replace 2 with (1 * 1 - 1 * -1) at 1 by ring. eapply Rle_trans; eauto.
  - replace (snd (nth 0 r (0, 0))) with (snd (nth 0 r (0, 0)) - (1 * -1 + 1 * 1)) by ring. eapply Rle_trans; eauto.
Qed.

Example C90_reload_instance : cf_compress int8 (cf_expand int8 (-128)) = Ok (-128)%Z.
Proof. apply C90_reload; auto. apply fitsb_spec. reflexivity. Qed.

Print Assumptions C90_product.
Print Assumptions C90_complex_product.
Print Assumptions C90_reload.
Print Assumptions C90_reload_array.
Print Assumptions C90_distinct.
