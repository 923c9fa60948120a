(** C85: the real FFT of the snippets. *)
From Coq Require Import List Arith ZArith Bool Lia Reals Lra.
From Verif Require Import Base.Outcome Base.OutcomeFacts Base.Sums Base.Cplx Spec.Dft Spec.Transforms Model.Fft2 Model.Algorithm Model.SnippetRfft.
From Verif Require Import Proof.DftTheory Proof.Fft2Proof Proof.BitrevProof Proof.RfftProof Proof.SnippetRfftProof.
Import ListNotations.
Open Scope outcome_scope.
Local Open Scope nat_scope.
Local Arguments Nat.pow : simpl never.
Local Arguments Nat.div : simpl never.

(** Complex values as the floats of an array: real part, imaginary part, real part, ... *)
Definition floats_of (z : list C) : list R := flat_map (fun c => [fst c; snd c]) z.

Lemma floats_of_interleave : forall z, floats_of z = interleave z.
Proof. induction z as [|[a b] z IH]; [reflexivity|]. cbn. f_equal. f_equal. exact IH. Qed.

(** The complex transform of 2^p interleaved values: isign = -1 is the DFT, isign = 1 the
    conjugate one, neither scaled. *)
Theorem C85_fft : forall p (z : list C), p <= 29 -> length z = 2 ^ p ->
  nr_fft (floats_of z) 1 = Ok (floats_of (DFT_list Backward z)) /\
  nr_fft (floats_of z) (-1) = Ok (floats_of (DFT_list Forward z)).
Proof. intros p z _ Hz. rewrite !floats_of_interleave. split; apply (nr_fft_ok p); auto. Qed.

(** The real transform of 2^p samples: bins 1 to n/2-1 interleaved from index 2 on, bin 0
    at index 0 and the real bin n/2 at index 1, all of the transform with kernel
    exp(+2 pi i j k / n). *)
Theorem C85_rfft : forall p x, 0 < p <= 30 -> length x = 2 ^ p ->
  let n := 2 ^ p in
  let Y := DFT Backward n (fun j => RtoC (nth j x 0%R)) in
  exists out, nr_rfft x 1 = Ok out /\ length out = n /\
    nth 0 out 0%R = fst (Y 0) /\ nth 1 out 0%R = fst (Y (n / 2)) /\
    forall k, 0 < k < n / 2 -> nth (2 * k) out 0%R = fst (Y k) /\ nth (2 * k + 1) out 0%R = snd (Y k).
Proof. intros p x Hp. apply nr_rfft_forward_ok. lia. Qed.

(** The other direction, which every sign but 1 selects, undoes it up to the factor n/2. *)
Theorem C85_inverse : forall p x isign, 0 < p <= 30 -> length x = 2 ^ p -> isign <> 1%Z ->
  exists y, nr_rfft x 1 = Ok y /\ length y = 2 ^ p /\
    nr_rfft y isign = Ok (map (fun v => (INR (2 ^ p / 2) * v)%R) x).
Proof. intros p x isign Hp. apply nr_rfft_roundtrip. lia. Qed.

(** The timed loop of main does not undo that factor: run i stores (n/2)^i times the first
    sample, and the buffer ends up scaled by (n/2)^runs. *)
Theorem C85_timed_loop : forall p x runs, 0 < p <= 30 -> length x = 2 ^ p ->
  nr_timed_loop runs x =
    Ok (map (fun v => (INR (2 ^ p / 2) ^ runs * v)%R) x,
        map (fun i => (INR (2 ^ p / 2) ^ i * nth 0 x 0)%R) (seq 0 runs)).
Proof.
  intros p x runs Hp Hx. unfold nr_timed_loop, for_range. rewrite Nat.sub_0_r.
  assert (HN : 2 ^ p = 2 * (2 ^ p / 2)).
  { destruct p as [|p]; [lia|]. rewrite Nat.pow_succ_r', half_of_double. reflexivity. }
  assert (Hpos : 0 < 2 ^ p) by (pose proof (Nat.pow_nonzero 2 p); lia).
  set (c := INR (2 ^ p / 2)).
  assert (Hc : INR (2 ^ p) = (2 * c)%R). { unfold c. rewrite HN at 1. rewrite mult_INR. reflexivity. }
  assert (Hc0 : (0 < c)%R). { unfold c. apply lt_0_INR. lia. }
  match goal with |- loop _ _ _ ?B _ = _ => set (body := B) end.
  destruct (loop_inv (list R * list R) (fun r s => s = (map (fun v => (c ^ r * v)%R) x, map (fun i => (c ^ i * nth 0 x 0)%R) (seq 0 r)))
    runs 0 1 body (x, [])) as [s [E ->]]; [| |exact E].
  - cbn [pow seq map]. f_equal. rewrite <- (map_id x) at 1. apply map_ext. intros v. ring.
  - intros r s Hr ->. unfold body. cbv beta iota zeta.
    destruct (nr_rfft_roundtrip p (map (fun v => (c ^ r * v)%R) x) (-1)) as [y [E1 [_ E2]]]; [lia|rewrite map_length; auto|discriminate|].
    rewrite E1. cbn [bind]. rewrite E2. cbn [bind]. fold c. rewrite map_map.
    rewrite (rd_ok _ _ 0 0%R) by (rewrite map_length; lia). cbn [bind]. eexists. split; [reflexivity|].
    rewrite map_length, Hx. f_equal.
    + apply map_ext. intros v. cbn [pow]. ring.
    + rewrite seq_S, map_app. f_equal. cbn [map Nat.add]. f_equal.
      rewrite (nth_indep _ 0%R ((fun v => c * (c ^ r * v)) 0)%R) by (rewrite map_length; lia). rewrite (map_nth (fun v => (c * (c ^ r * v))%R)).
      rewrite Hc. field. lra.
Qed.

(** Fewer than two samples: undefined in both directions. *)
Theorem C85_short_undefined : forall x isign, length x < 2 -> nr_rfft x isign = UB.
Proof.
  intros x isign H. destruct x as [|a [|b x]]; [| |simpl in H; lia]; unfold nr_rfft; cbn [length].
  - destruct (Z.eqb isign 1); reflexivity.
  - change (1 / 4) with 0. unfold for_range. cbn [Nat.sub loop]. destruct (Z.eqb isign 1); [|reflexivity].
    unfold nr_fft. cbn [length Nat.leb guard bind]. change (1 / 2) with 0. reflexivity.
Qed.

(** The example of main, with four samples: the impulse has a flat spectrum, and after the
    inverse and the scaling by 2/n it is back. *)
Example C85_example : exists y, nr_rfft [1%R; 0%R; 0%R; 0%R] 1 = Ok y /\
  y = [1; 1; 1; 0]%R /\ nr_rfft y (-1) = Ok [2; 0; 0; 0]%R.
Proof.
  destruct (C85_inverse 2 [1%R; 0%R; 0%R; 0%R] (-1)) as [y [E [L E']]]; [lia|reflexivity|discriminate|].
  exists y. split; auto. split.
  - destruct (C85_rfft 2 [1%R; 0%R; 0%R; 0%R]) as [o [Eo [Lo [H0 [H1 H2]]]]]; [lia|reflexivity|].
    rewrite E in Eo. inversion Eo. subst o. clear Eo.
    assert (D : forall k, DFT Backward (2 ^ 2) (fun j => RtoC (nth j [1%R; 0%R; 0%R; 0%R] 0%R)) k = RtoC 1).
    { intros k. unfold DFT, Csum. change (2 ^ 2) with 4. cbn [bsum nth]. rewrite Nat.mul_0_l, W_0. apply C_eq; unfold Cadd, Cmul, RtoC, C1, C0; cbn [fst snd]; ring. }
    rewrite !D in *. destruct (H2 1) as [A B]. { change (2 ^ 2 / 2) with 2. lia. } rewrite D in A, B. cbn in H0, H1, A, B.
    change (2 ^ 2) with 4 in L. destruct y as [|a [|b [|c [|d [|? ?]]]]]; simpl in L; try lia. cbn in H0, H1, A, B. subst. reflexivity.
  - rewrite E'. change (2 ^ 2 / 2) with 2. cbn [map]. change (INR 2) with 2%R. repeat f_equal; ring.
Qed.

Print Assumptions C85_fft.
Print Assumptions C85_rfft.
Print Assumptions C85_inverse.
Print Assumptions C85_timed_loop.
Print Assumptions C85_short_undefined.
