(** Property theorems C49: compressed_fdl.  Specification in Spec/CompressedFdl.v. *)
From Coq Require Import Reals List Arith ZArith Lia Lra Bool.
From Flocq Require Import Core.
From Verif Require Import Base.Outcome Base.OutcomeFacts Model.Integers Model.FixedPoint Model.CompressedFdl Proof.FixedFloat
  Spec.CompressedFdl Proof.CompressedFdlProof.
Import ListNotations.
Local Open Scope R_scope.

Lemma small_types : forall t, t = int8 \/ t = int16 -> small t.
Proof. intros t [->| ->]; split; cbn; auto; lia. Qed.

(** After any sequence of inserts of spectra with components in [-1, 1], every element reads
    back as the value last inserted there, up to half a quantisation step (plus 2^-22 for
    float rounding); elements never inserted read as zero. *)
Theorem C49_history : forall t rows cols ops, t = int8 \/ t = int16 -> Forall (good_insert rows cols) ops ->
  exists fdl, cf_run t ops (cf_make rows cols) = Ok fdl /\
    forall r c, (r < rows)%nat -> (c < cols)%nat -> exists z, cf_read t fdl r c = Ok z /\
      match newest ops r c with
      | Some v => Rabs (fst z - fst v) <= cf_error t /\ Rabs (snd z - snd v) <= cf_error t
      | None => z = (0, 0)
      end.
Proof.
  intros t rows cols ops Ht Ho. apply small_types in Ht.
  destruct (run_ok t rows cols ops (cf_make rows cols) Ht (make_shaped rows cols) Ho) as (fdl & E & S & V). exists fdl. split; auto.
  intros r c Hr Hc. rewrite (read_ok t rows cols) by auto. eexists. split; [reflexivity|]. rewrite V by auto. cbn [fst snd].
  destruct (newest ops r c) as [v|] eqn:N.
  - destruct (newest_good rows cols ops r c v Ho N) as [U1 U2]. cbn [fst snd]. split; apply expand_close; auto.
  - rewrite make_at2. cbn [fst snd]. now rewrite expand_0.
Qed.

(** Half a step: 1/254 for int8, 1/65534 for int16. *)
Theorem C49_error : cf_error int8 = 1 / 254 + / 2 ^ 22 /\ cf_error int16 = 1 / 65534 + / 2 ^ 22.
Proof. unfold cf_error, imax. cbn. split; lra. Qed.

(** Insert outside the extents is out of bounds. *)
Theorem C49_out_of_bounds : forall t values index fdl, (length fdl <= index)%nat -> cf_insert t values index fdl = UB.
Proof. intros t values index fdl H. unfold cf_insert. rewrite rd_ub by auto. reflexivity. Qed.

(** Components above 1 do not saturate: they come back negative (up to twice the range). *)
Theorem C49_overflow_refuted : forall t v, t = int8 \/ t = int16 ->
  IZR (imax t) + / 2 <= rnd32 (v * IZR (imax t)) <= 2 * IZR (imax t) ->
  exists n, cf_compress t v = Ok n /\ cf_expand t n < 0.
Proof.
  intros t v Ht H. apply small_types in Ht. destruct (compress_wraps t v Ht H) as (n & E & Hn). exists n. split; auto.
  apply expand_neg; auto. apply compress_range with v; auto.
Qed.

Example C49_overflow_instance : exists n, cf_compress int8 (3 / 2) = Ok n /\ cf_expand int8 n < 0.
Proof.
  apply C49_overflow_refuted; auto. replace (IZR (imax int8)) with 127 by reflexivity.
  replace (3 / 2 * 127) with (IZR 381 * bpow radix2 (-1)) by (cbn; lra).
  rewrite rnd32_id by (apply float32_scaled; lia). cbn. lra.
Qed.

(** A row overwritten by a shorter one keeps its tail. *)
Example C49_instance : exists fdl, cf_run int8 [(1%nat, [(1, -1); (1 / 2, 0)]); (1%nat, [(0, 1)])] (cf_make 2 2) = Ok fdl /\
  (exists z, cf_read int8 fdl 1 0 = Ok z /\ Rabs (fst z) <= 1 / 250 /\ Rabs (snd z - 1) <= 1 / 250) /\
  (exists z, cf_read int8 fdl 1 1 = Ok z /\ Rabs (fst z - 1 / 2) <= 1 / 250) /\ cf_read int8 fdl 0 1 = Ok (0, 0).
Proof.
  assert (U : forall n e, (Z.abs n < 2 ^ 24)%Z -> (-149 <= e)%Z -> Rabs (IZR n * bpow radix2 e) <= 1 -> unit_float (IZR n * bpow radix2 e)).
  { intros. split; auto. apply float32_scaled; auto. }
  assert (U0 : unit_float 0). { replace 0 with (IZR 0 * bpow radix2 0) by (cbn; lra). apply U; try lia. cbn. rewrite Rmult_0_l, Rabs_R0. lra. }
  assert (U1 : unit_float 1). { replace 1 with (IZR 1 * bpow radix2 0) by (cbn; lra). apply U; try lia. cbn. rewrite Rmult_1_l, Rabs_R1. lra. }
  assert (U2 : unit_float (-1)). { replace (-1) with (IZR (-1) * bpow radix2 0) by (cbn; lra). apply U; try lia. cbn. rewrite Rabs_left; lra. }
  assert (U3 : unit_float (1 / 2)). { replace (1 / 2) with (IZR 1 * bpow radix2 (-1)) by (cbn; lra). apply U; try lia. cbn. rewrite Rabs_right; lra. }
  destruct (C49_history int8 2 2 [(1%nat, [(1, -1); (1 / 2, 0)]); (1%nat, [(0, 1)])]) as (fdl & E & V); auto.
  { apply Forall_cons; [|apply Forall_cons; [|apply Forall_nil]]; (split; [cbn; lia|]; split; [cbn; lia|]);
    intros v Hv; cbn in Hv; repeat destruct Hv as [<-|Hv]; cbn; auto; contradiction. }
  assert (B : cf_error int8 <= 1 / 250). { destruct C49_error as [-> _]. cbn. lra. }
  exists fdl. split; auto. split; [|split].
  - destruct (V 1%nat 0%nat) as (z & Ez & Hz); try lia. cbn in Hz. exists z. split; auto. rewrite Rminus_0_r in Hz. lra.
  - destruct (V 1%nat 1%nat) as (z & Ez & Hz); try lia. cbn in Hz. exists z. split; auto. lra.
  - destruct (V 0%nat 1%nat) as (z & Ez & Hz); try lia. cbn in Hz. rewrite Ez, Hz. reflexivity.
Qed.

Print Assumptions C49_history.
Print Assumptions C49_error.
Print Assumptions C49_out_of_bounds.
Print Assumptions C49_overflow_refuted.
