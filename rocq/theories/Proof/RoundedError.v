(** Rounding errors of the radix-2 transform. *)
From Coq Require Import Reals List Arith Lia Lra Psatz Bool.
From Verif Require Import Base.Outcome Base.OutcomeFacts Base.Sums Base.Cplx Base.VecNorm Spec.Dft Spec.DigitRev Model.Fft2 Model.RoundedFft Proof.DftTheory Proof.Fft2Proof Proof.StreamProof Proof.RoundedExec.
Import ListNotations.
Local Open Scope R_scope.
Local Arguments Nat.div : simpl never.
Local Arguments Nat.modulo : simpl never.
Local Arguments Nat.pow : simpl never.

(** ** Complex arithmetic *)

Lemma Cabs_mono : forall d f g, Rabs (fst d) <= f -> Rabs (snd d) <= g -> Cabs d <= Cabs (f, g).
Proof.
  intros [a b] f g Ha Hb. cbn [fst snd] in *. unfold Cabs, Cnorm2. cbn [fst snd]. pose proof (Rabs_pos a). pose proof (Rabs_pos b).
  apply sqrt_le_1_alt. assert (Q : forall x h, Rabs x <= h -> x * x <= h * h). { intros x h Hx. pose proof (Rabs_pos x). apply Rsqr_le_abs_1. rewrite (Rabs_pos_eq h) by lra. auto. }
  pose proof (Q a f Ha). pose proof (Q b g Hb). lra.
Qed.

Lemma Cabs_scaled : forall s x, 0 <= s -> Cabs (s * Rabs (fst x), s * Rabs (snd x)) = s * Cabs x.
Proof.
  intros s [a b] Hs. unfold Cabs, Cnorm2. cbn [fst snd]. assert (H : forall x, Rabs x * Rabs x = x * x) by (intros x; rewrite <- Rabs_mult; apply Rabs_pos_eq, Rle_0_sqr).
  replace (s * Rabs a * (s * Rabs a) + s * Rabs b * (s * Rabs b)) with (s * s * (a * a + b * b)) by (rewrite <- (H a), <- (H b); ring).
  rewrite sqrt_mult by nra. rewrite sqrt_square by auto. auto.
Qed.

Lemma Cabs_affine : forall d x s h, 0 <= s -> 0 <= h -> Rabs (fst d) <= s * Rabs (fst x) + h -> Rabs (snd d) <= s * Rabs (snd x) + h -> Cabs d <= s * Cabs x + 3 / 2 * h.
Proof.
  intros d x s h Hs Hh H1 H2. eapply Rle_trans; [apply (Cabs_mono _ _ _ H1 H2)|].
  replace (s * Rabs (fst x) + h, s * Rabs (snd x) + h) with (Cadd (s * Rabs (fst x), s * Rabs (snd x)) (h, h)) by reflexivity.
  eapply Rle_trans; [apply Cabs_triang|]. rewrite Cabs_scaled by auto. apply Rplus_le_compat_l. apply Cabs_box; cbn [fst snd]; rewrite Rabs_pos_eq; lra.
Qed.

Lemma cauchy_products : forall w b : C, Rabs (fst w * fst b) + Rabs (snd w * snd b) <= Cabs w * Cabs b /\ Rabs (fst w * snd b) + Rabs (snd w * fst b) <= Cabs w * Cabs b.
Proof.
  intros [a b] [c d]. rewrite <- Cabs_mul. cbn [fst snd]. unfold Cabs, Cnorm2. cbn [Cmul fst snd].
  assert (H : forall x, Rabs x * Rabs x = x * x) by (intros x; rewrite <- Rabs_mult; apply Rabs_pos_eq, Rle_0_sqr).
  rewrite !Rabs_mult. pose proof (H a). pose proof (H b). pose proof (H c). pose proof (H d). pose proof (Rabs_pos a). pose proof (Rabs_pos b). pose proof (Rabs_pos c). pose proof (Rabs_pos d).
  set (A := Rabs a) in *. set (B := Rabs b) in *. set (C' := Rabs c) in *. set (D := Rabs d) in *.
  replace ((a * c - b * d) * (a * c - b * d) + (a * d + b * c) * (a * d + b * c)) with ((A * A + B * B) * (C' * C' + D * D)) by (rewrite H0, H1, H2, H3; ring).
  split; [pose proof (Rle_0_sqr (A * D - B * C')) as S|pose proof (Rle_0_sqr (A * C' - B * D)) as S]; unfold Rsqr in S;
  (rewrite <- (sqrt_square (_ + _)) by nra); apply sqrt_le_1_alt; nra.
Qed.

Section Error.
Variables (rnd : R -> R) (u eta Om tau : R).
Hypothesis Hacc : forall x, Rabs x <= Om -> Rabs (rnd x - x) <= u * Rabs x + eta.
Hypotheses (Hu : 0 <= u <= 1 / 100) (Heta : 0 <= eta <= 1 / 100) (Htau : 0 <= tau <= 1 / 100).

Notation radd := (radd rnd). Notation rsub := (rsub rnd). Notation rmul := (rmul rnd).

Lemma radd_error : forall x y, Cabs (x + y)%C <= Om -> Cabs (radd x y - (x + y))%C <= u * Cabs (x + y)%C + 3 / 2 * eta.
Proof using All.
  intros x y H. destruct (Rabs_le_Cabs (x + y)%C) as [H1 H2]. apply Cabs_affine; try lra; cbn [Csub RoundedFft.radd fst snd]; apply Hacc; eapply Rle_trans; [apply H1|auto|apply H2|auto].
Qed.

Lemma rsub_error : forall x y, Cabs (x - y)%C <= Om -> Cabs (rsub x y - (x - y))%C <= u * Cabs (x - y)%C + 3 / 2 * eta.
Proof using All.
  intros x y H. destruct (Rabs_le_Cabs (x - y)%C) as [H1 H2]. apply Cabs_affine; try lra; cbn [Csub RoundedFft.rsub fst snd]; apply Hacc; eapply Rle_trans; [apply H1|auto|apply H2|auto].
Qed.

(** Two rounded products and their rounded sum. *)
Lemma dot_error : forall P Q M, Rabs P + Rabs Q <= M -> 21 / 20 * M + 1 <= Om ->
  Rabs (rnd (rnd P + rnd Q) - (P + Q)) <= 201 / 100 * u * M + 302 / 100 * eta /\ Rabs (rnd (rnd P - rnd Q) - (P - Q)) <= 201 / 100 * u * M + 302 / 100 * eta.
Proof using All.
  intros P Q M HM HO. pose proof (Rabs_pos P). pose proof (Rabs_pos Q).
  assert (HP := Hacc P ltac:(lra)). assert (HQ := Hacc Q ltac:(lra)). set (p := rnd P) in *. set (q := rnd Q) in *.
  assert (Bp : Rabs p <= (1 + u) * Rabs P + eta). { replace p with (P + (p - P)) by ring. eapply Rle_trans; [apply Rabs_triang|]. lra. }
  assert (Bq : Rabs q <= (1 + u) * Rabs Q + eta). { replace q with (Q + (q - Q)) by ring. eapply Rle_trans; [apply Rabs_triang|]. lra. }
  assert (Hs : (1 + u) * Rabs P + eta + ((1 + u) * Rabs Q + eta) <= (1 + u) * M + 2 * eta) by nra.
  assert (Ho : (1 + u) * M + 2 * eta <= Om) by nra.
  assert (G : forall s S, Rabs s <= Rabs p + Rabs q -> Rabs (s - S) <= Rabs (p - P) + Rabs (q - Q) -> Rabs (rnd s - S) <= 201 / 100 * u * M + 302 / 100 * eta).
  { intros s S Hs1 Hs2. assert (Hr := Hacc s ltac:(lra)). replace (rnd s - S) with ((rnd s - s) + (s - S)) by ring. eapply Rle_trans; [apply Rabs_triang|].
    assert (Bs : Rabs s <= (1 + u) * M + 2 * eta) by lra. assert (u * Rabs s <= u * ((1 + u) * M + 2 * eta)) by (apply Rmult_le_compat_l; lra).
    assert (Rabs (p - P) + Rabs (q - Q) <= u * M + 2 * eta) by nra. assert (0 <= M) by lra. assert (u * u * M <= 1 / 100 * u * M) by (apply Rmult_le_compat_r; nra). nra. }
  split; apply G.
  - apply Rabs_triang.
  - replace (p + q - (P + Q)) with ((p - P) + (q - Q)) by ring. apply Rabs_triang.
  - unfold Rminus. eapply Rle_trans; [apply Rabs_triang|]. rewrite Rabs_Ropp. lra.
  - replace (p - q - (P - Q)) with ((p - P) + - (q - Q)) by ring. eapply Rle_trans; [apply Rabs_triang|]. rewrite Rabs_Ropp. lra.
Qed.

Lemma rmul_error : forall w b, 21 / 20 * (Cabs w * Cabs b) + 1 <= Om -> Cabs (rmul w b - w * b)%C <= 31 / 10 * u * (Cabs w * Cabs b) + 46 / 10 * eta.
Proof using All.
  intros w b HO. destruct (cauchy_products w b) as [H1 H2]. set (M := Cabs w * Cabs b) in *.
  assert (HM : 0 <= M) by (apply Rmult_le_pos; apply Cabs_pos).
  destruct (dot_error _ _ M H1 HO) as [_ E1]. destruct (dot_error _ _ M H2 HO) as [E2 _].
  eapply Rle_trans; [apply (Cabs_box _ (201 / 100 * u * M + 302 / 100 * eta)); cbn [Csub Cmul RoundedFft.rmul fst snd]; [exact E1|exact E2]|].
  assert (0 <= u * M) by nra. nra.
Qed.

(** One butterfly: the computed outputs against a + W b and a - W b. *)
Lemma product_error : forall w W b, Cabs W = 1 -> Cabs (w - W)%C <= tau -> 3 * Cabs b + 1 <= Om ->
  Cabs (rmul w b - W * b)%C <= (32 / 10 * u + tau) * Cabs b + 46 / 10 * eta.
Proof using All.
  intros w W b HW Hw HO. pose proof (Cabs_pos b) as B0. pose proof (Cabs_pos w) as W0.
  assert (Bw : Cabs w <= 101 / 100). { replace w with (W + (w - W))%C by ring. eapply Rle_trans; [apply Cabs_triang|]. lra. }
  assert (Bm : Cabs w * Cabs b <= 101 / 100 * Cabs b) by (apply Rmult_le_compat_r; auto).
  replace (rmul w b - W * b)%C with ((rmul w b - w * b) + (w - W) * b)%C by ring. eapply Rle_trans; [apply Cabs_triang|]. rewrite (Cabs_mul (w - W)%C).
  assert (E := rmul_error w b ltac:(lra)). assert (Cabs (w - W)%C * Cabs b <= tau * Cabs b) by (apply Rmult_le_compat_r; auto).
  assert (u * (Cabs w * Cabs b) <= u * (101 / 100 * Cabs b)) by (apply Rmult_le_compat_l; lra). nra.
Qed.

Definition alpha : R := tau + 9 / 2 * u.
Definition beta : R := 7 * eta.

Lemma butterfly_error : forall w W a b V, Cabs W = 1 -> Cabs (w - W)%C <= tau -> Cabs a <= V -> Cabs b <= V -> 3 * V + 1 <= Om ->
  Cabs (bp1 rnd w a b - (a + W * b))%C <= alpha * (Cabs a + Cabs b) + beta /\
  Cabs (bm1 rnd w a b - (a - W * b))%C <= alpha * (Cabs a + Cabs b) + beta.
Proof using All.
  intros w W a b V HW Hw Ha Hb HO. unfold bp1, bm1. pose proof (Cabs_pos a) as A0. pose proof (Cabs_pos b) as B0.
  assert (E := product_error w W b HW Hw ltac:(lra)). set (m := rmul w b) in *.
  assert (Bm : Cabs m <= 1042 / 1000 * Cabs b + 46 / 10 * eta).
  { replace m with (W * b + (m - W * b))%C by ring. eapply Rle_trans; [apply Cabs_triang|]. rewrite Cabs_mul, HW. nra. }
  assert (T1 : Cabs (a + m)%C <= Cabs a + Cabs m) by apply Cabs_triang. assert (T2 : Cabs (a - m)%C <= Cabs a + Cabs m) by apply Cabs_triang_sub.
  assert (Hs : Cabs a + Cabs m <= Cabs a + 1042 / 1000 * Cabs b + 46 / 10 * eta) by lra.
  assert (Us : u * (Cabs a + Cabs m) <= u * Cabs a + 1042 / 1000 * u * Cabs b + 46 / 1000 * eta) by nra.
  unfold alpha, beta. assert (0 <= u * Cabs a) by nra. assert (0 <= u * Cabs b) by nra. assert (0 <= tau * Cabs a) by nra.
  split.
  - replace (radd a m - (a + W * b))%C with ((radd a m - (a + m)) + (m - W * b))%C by ring. eapply Rle_trans; [apply Cabs_triang|].
    assert (R := radd_error a m ltac:(lra)). assert (u * Cabs (a + m)%C <= u * (Cabs a + Cabs m)) by (apply Rmult_le_compat_l; lra). nra.
  - replace (rsub a m - (a - W * b))%C with ((rsub a m - (a - m)) - (m - W * b))%C by ring. eapply Rle_trans; [apply Cabs_triang_sub|].
    assert (R := rsub_error a m ltac:(lra)). assert (u * Cabs (a - m)%C <= u * (Cabs a + Cabs m)) by (apply Rmult_le_compat_l; lra). nra.
Qed.

Lemma butterfly0_error : forall w a b V, Cabs a <= V -> Cabs b <= V -> 3 * V + 1 <= Om ->
  Cabs (bp0 rnd w a b - (a + b))%C <= alpha * (Cabs a + Cabs b) + beta /\
  Cabs (bm0 rnd w a b - (a - b))%C <= alpha * (Cabs a + Cabs b) + beta.
Proof using All.
  intros w a b V Ha Hb HO. unfold bp0, bm0. pose proof (Cabs_pos a) as A0. pose proof (Cabs_pos b) as B0.
  assert (T1 : Cabs (a + b)%C <= Cabs a + Cabs b) by apply Cabs_triang. assert (T2 : Cabs (a - b)%C <= Cabs a + Cabs b) by apply Cabs_triang_sub.
  assert (R1 := radd_error a b ltac:(lra)). assert (R2 := rsub_error a b ltac:(lra)). unfold alpha, beta.
  assert (u * Cabs (a + b)%C <= u * (Cabs a + Cabs b)) by (apply Rmult_le_compat_l; lra). assert (u * Cabs (a - b)%C <= u * (Cabs a + Cabs b)) by (apply Rmult_le_compat_l; lra).
  assert (0 <= u * (Cabs a + Cabs b)) by nra. assert (0 <= tau * (Cabs a + Cabs b)) by nra. split; lra.
Qed.


(** ** One stage *)

Definition xp (w a b : C) : C := (a + w * b)%C.
Definition xm (w a b : C) : C := (a - w * b)%C.

Lemma stagef_at : forall bp bm L tw v b k, (k < L)%nat ->
  stagef bp bm L tw v (b * (2 * L) + k)%nat = bp (tw k) (v (b * (2 * L) + k)%nat) (v (b * (2 * L) + k + L)%nat) /\
  stagef bp bm L tw v (b * (2 * L) + k + L)%nat = bm (tw k) (v (b * (2 * L) + k)%nat) (v (b * (2 * L) + k + L)%nat).
Proof.
  intros bp bm L tw v b k Hk. unfold stagef. cbv zeta.
  assert (M1 : ((b * (2 * L) + k) mod (2 * L) = k)%nat) by (rewrite Nat.add_comm, Nat.mod_add by lia; apply Nat.mod_small; lia).
  assert (M2 : ((b * (2 * L) + k + L) mod (2 * L) = k + L)%nat) by (rewrite <- Nat.add_assoc, Nat.add_comm, Nat.mod_add by lia; apply Nat.mod_small; lia).
  rewrite M1, M2. destruct (Nat.ltb_spec k L); [|lia]. destruct (Nat.ltb_spec (k + L) L); [lia|].
  replace (k + L - L)%nat with k by lia. replace (b * (2 * L) + k + L - L)%nat with (b * (2 * L) + k)%nat by lia. auto.
Qed.

Lemma pair_sum : forall nb L f, Rsum (nb * (2 * L)) f = Rsum nb (fun b => Rsum L (fun k => f (b * (2 * L) + k)%nat + f (b * (2 * L) + k + L)%nat)).
Proof.
  intros nb L f. rewrite StreamProof.Rsum_block. apply Rsum_ext. intros b Hb. replace (2 * L)%nat with (L + L)%nat at 1 by lia. rewrite Rsum_split, <- Rsum_add. apply Rsum_ext. intros k Hk. f_equal. f_equal. lia.
Qed.

Lemma exact_norm : forall nb L tw v, (forall k, (k < L)%nat -> Cabs (tw k) = 1) -> vnorm (nb * (2 * L)) (stagef xp xm L tw v) = sqrt 2 * vnorm (nb * (2 * L)) v.
Proof.
  intros nb L tw v Htw. unfold vnorm. rewrite <- sqrt_mult by (lra || (apply Rsum_nonneg; intros; apply Cnorm2_pos)). f_equal.
  rewrite !pair_sum, <- Rsum_mul_l. apply Rsum_ext. intros b Hb. rewrite <- Rsum_mul_l. apply Rsum_ext. intros k Hk.
  destruct (stagef_at xp xm L tw v b k Hk) as [-> ->]. unfold xp, xm. set (a := v (b * (2 * L) + k)%nat). set (c := v (b * (2 * L) + k + L)%nat).
  assert (N : Cnorm2 (tw k) = 1) by (rewrite <- Cabs_sq, Htw by auto; ring). rewrite <- (Rmult_1_l (Cnorm2 c)), <- N. destruct a as [a1 a2], c as [c1 c2], (tw k) as [w1 w2]. unfold Cnorm2. cbn [Cadd Csub Cmul fst snd]. ring.
Qed.

Lemma exact_sub : forall L tw v v' i, (stagef xp xm L tw v i - stagef xp xm L tw v' i = stagef xp xm L tw (fun i => v i - v' i) i)%C.
Proof. intros. unfold stagef. cbv zeta. destruct (i mod (2 * L) <? L)%nat; unfold xp, xm; ring. Qed.

Lemma stage_error : forall bp bm nb L tw twr v, (forall b k, (b < nb)%nat -> (k < L)%nat -> let a := v (b * (2 * L) + k)%nat in let c := v (b * (2 * L) + k + L)%nat in
    Cabs (bp (twr k) a c - (a + tw k * c))%C <= alpha * (Cabs a + Cabs c) + beta /\ Cabs (bm (twr k) a c - (a - tw k * c))%C <= alpha * (Cabs a + Cabs c) + beta) ->
  vnorm (nb * (2 * L)) (fun i => stagef bp bm L twr v i - stagef xp xm L tw v i)%C <= 2 * alpha * vnorm (nb * (2 * L)) v + beta * sqrt (INR (nb * (2 * L))).
Proof using All.
  intros bp bm nb L tw twr v H.
  assert (A0 : 0 <= alpha) by (unfold alpha; lra). assert (B0 : 0 <= beta) by (unfold beta; lra).
  set (g := stagef (fun _ a c => RtoC (Cabs a + Cabs c)) (fun _ a c => RtoC (Cabs a + Cabs c)) L tw v).
  assert (Eg : forall a c, Cabs (RtoC (Cabs a + Cabs c)) = Cabs a + Cabs c).
  { intros a c. unfold Cabs at 1, Cnorm2, RtoC. cbn [fst snd]. rewrite Rmult_0_l, Rplus_0_r. apply sqrt_square. pose proof (Cabs_pos a). pose proof (Cabs_pos c). lra. }
  assert (Hg : vnorm (nb * (2 * L)) g <= 2 * vnorm (nb * (2 * L)) v).
  { unfold vnorm. replace 2 with (sqrt (2 * 2)) by (apply sqrt_square; lra). rewrite <- sqrt_mult by (lra || (apply Rsum_nonneg; intros; apply Cnorm2_pos)). apply sqrt_le_1_alt.
    rewrite !pair_sum, <- Rsum_mul_l. apply Rsum_mono. intros b Hb. rewrite <- Rsum_mul_l. apply Rsum_mono. intros k Hk. unfold g.
    destruct (stagef_at (fun _ a c => RtoC (Cabs a + Cabs c)) (fun _ a c => RtoC (Cabs a + Cabs c)) L tw v b k Hk) as [-> ->]. rewrite <- !Cabs_sq, !Eg.
    set (p := Cabs (v (b * (2 * L) + k)%nat)). set (q := Cabs (v (b * (2 * L) + k + L)%nat)). pose proof (Rle_0_sqr (p - q)) as S. unfold Rsqr in S. nra. }
  eapply Rle_trans; [apply (vnorm_affine _ _ g (alpha) (beta)); auto|].
  - intros i Hi. destruct (Nat.eq_dec L 0) as [->|L0]; [lia|].
    pose proof (Nat.div_mod i (2 * L) ltac:(lia)) as DM. pose proof (Nat.mod_upper_bound i (2 * L) ltac:(lia)) as MB. set (b := (i / (2 * L))%nat) in *. set (r := (i mod (2 * L))%nat) in *.
    assert (Hb : (b < nb)%nat) by nia. unfold g.
    destruct (Nat.lt_ge_cases r L) as [Lt|Ge].
    + replace i with (b * (2 * L) + r)%nat by lia. rewrite !(proj1 (stagef_at _ _ L _ v b r Lt)), Eg. apply H; auto.
    + replace i with (b * (2 * L) + (r - L) + L)%nat by lia. assert (Lt : (r - L < L)%nat) by lia. rewrite !(proj2 (stagef_at _ _ L _ v b (r - L) Lt)), Eg. apply H; auto.
  - assert (alpha * vnorm (nb * (2 * L)) g <= alpha * (2 * vnorm (nb * (2 * L)) v)) by (apply Rmult_le_compat_l; auto). lra.
Qed.

(** ** All stages *)

Fixpoint exact_stages (d : direction) (s : nat) (v : nat -> C) : nat -> C :=
  match s with
  | O => v
  | S s' => stagef xp xm (2 ^ s') (W d (2 ^ S s')) (exact_stages d s' v)
  end.

Lemma W_abs : forall d n k, Cabs (W d n k) = 1.
Proof.
  intros. unfold Cabs. replace (Cnorm2 (W d n k)) with 1; [apply sqrt_1|]. unfold Cnorm2, W, Cexp. cbn [fst snd]. pose proof (sin2_cos2 (dsign d * (2 * PI) * INR k / INR n)) as H. unfold Rsqr in H. lra.
Qed.

Lemma exact_dit : forall d p x s, (s <= p)%nat -> dit_inv d 2 p s x (exact_stages d s (fun i => x (digit_rev 2 p i))).
Proof.
  intros d p x s. induction s as [|s IH]; intros Hs.
  - apply dit_inv_0; auto.
  - cbn [exact_stages]. apply dit_inv_step with (a := exact_stages d s (fun i => x (digit_rev 2 p i))); [lia|lia|apply IH; lia|].
    set (a := exact_stages d s _). intros b k q Hb Hk Hq. unfold Csum. cbn [bsum].
    destruct (stagef_at xp xm (2 ^ s) (W d (2 ^ S s)) a b k Hk) as [E1 E2].
    replace ((b * 2 + 0) * 2 ^ s + k)%nat with (b * (2 * 2 ^ s) + k)%nat by lia. replace ((b * 2 + 1) * 2 ^ s + k)%nat with (b * (2 * 2 ^ s) + k + 2 ^ s)%nat by lia.
    destruct q as [|[|q]]; [| |lia].
    + replace (b * 2 ^ S s + (0 * 2 ^ s + k))%nat with (b * (2 * 2 ^ s) + k)%nat by (rewrite Nat.pow_succ_r'; lia). rewrite E1. unfold xp. rewrite !Nat.mul_0_l, !Nat.add_0_l, W_0, Nat.mul_1_l. ring.
    + replace (b * 2 ^ S s + (1 * 2 ^ s + k))%nat with (b * (2 * 2 ^ s) + k + 2 ^ s)%nat by (rewrite Nat.pow_succ_r'; lia). rewrite E2. unfold xm. rewrite !Nat.mul_0_l, W_0, !Nat.mul_1_l.
      rewrite W_add. rewrite Nat.pow_succ_r'. rewrite W_half by apply pow2_pos. ring.
Qed.

Lemma exact_stages_norm : forall d p s v, (s <= p)%nat -> vnorm (2 ^ p) (exact_stages d s v) = sqrt 2 ^ s * vnorm (2 ^ p) v.
Proof.
  intros d p s v. induction s as [|s IH]; intros Hs; cbn [exact_stages pow]; [ring|].
  rewrite (half_split p s) by lia. rewrite exact_norm by (intros; apply W_abs). rewrite <- (half_split p s), IH by lia. ring.
Qed.

Definition eps : R := 3 / 2 * alpha.

Lemma sqrt2_bounds : 4 / 3 <= sqrt 2 <= 3 / 2.
Proof.
  split; [|apply sqrt_le_of_sq; lra]. rewrite <- (sqrt_square (4 / 3)) by lra. apply sqrt_le_1_alt. lra.
Qed.

Section Run.
Variables (d : direction) (p : nat) (twl x : list C).
Hypotheses (Hx : length x = (2 ^ p)%nat).
Hypothesis Htw : forall k, (k < 2 ^ (p - 1))%nat -> Cabs (nth k twl C0 - W d (2 ^ p) k)%C <= tau.
Let v := fun i => nth i x C0.
Let N := vnorm (2 ^ p) v.
Let B := beta * sqrt (INR (2 ^ p)).
Hypothesis Hom : 3 * (sqrt 2 ^ p * ((1 + eps) ^ p * (N + INR p * B))) + 1 <= Om.

Definition run_error (s : nat) : R := vnorm (2 ^ p) (fun i => nth i (stages rnd p twl s x) C0 - exact_stages d s v i)%C.
Definition run_bound (s : nat) : R := ((1 + eps) ^ s - 1) * N + INR s * ((1 + eps) ^ s * B).

Lemma eps_pos : 0 <= eps.
Proof using All. unfold eps, alpha. lra. Qed.
Lemma N_pos : 0 <= N.
Proof using All. apply vnorm_pos. Qed.
Lemma B_pos : 0 <= B.
Proof using All. unfold B, beta. apply Rmult_le_pos; [lra|apply sqrt_pos]. Qed.

Lemma total_bound : forall s, (s <= p)%nat -> sqrt 2 ^ s * (N + run_bound s) <= sqrt 2 ^ p * ((1 + eps) ^ p * (N + INR p * B)).
Proof using All.
  intros s Hs. pose proof eps_pos as E0. pose proof N_pos as N0. pose proof B_pos as B0. pose proof sqrt2_bounds as R2.
  replace (N + run_bound s) with ((1 + eps) ^ s * (N + INR s * B)) by (unfold run_bound; ring).
  assert (P1 : 0 <= (1 + eps) ^ s <= (1 + eps) ^ p) by (split; [apply pow_le; lra|apply Rle_pow; [lra|auto]]).
  assert (P2 : 0 <= sqrt 2 ^ s <= sqrt 2 ^ p) by (split; [apply pow_le; lra|apply Rle_pow; [lra|auto]]).
  assert (P3 : 0 <= N + INR s * B <= N + INR p * B). { pose proof (pos_INR s). apply le_INR in Hs. assert (0 <= INR s * B) by (apply Rmult_le_pos; auto). assert (INR s * B <= INR p * B) by (apply Rmult_le_compat_r; auto). lra. }
  apply Rmult_le_compat; try lra; [apply Rmult_le_pos; lra|]. apply Rmult_le_compat; lra.
Qed.

Lemma stage_norm : forall s, (s <= p)%nat -> run_error s <= sqrt 2 ^ s * run_bound s ->
  vnorm (2 ^ p) (fun i => nth i (stages rnd p twl s x) C0) <= sqrt 2 ^ s * (N + run_bound s).
Proof using All.
  intros s Hs H. rewrite (vnorm_ext _ _ (fun i => (nth i (stages rnd p twl s x) C0 - exact_stages d s v i) + exact_stages d s v i)%C) by (intros; ring).
  eapply Rle_trans; [apply vnorm_add|]. fold (run_error s). rewrite exact_stages_norm by auto. fold N. lra.
Qed.

Lemma run_step : forall s, (s < p)%nat -> run_error s <= sqrt 2 ^ s * run_bound s -> run_error (S s) <= sqrt 2 ^ S s * run_bound (S s).
Proof using All.
  intros s Hs IH. pose proof (stage_norm s ltac:(lia) IH) as Hn. pose proof (total_bound s ltac:(lia)) as Ht.
  set (y := stages rnd p twl s x) in *. set (yf := fun i => nth i y C0) in *. set (V := vnorm (2 ^ p) yf) in *.
  assert (HO : 3 * V + 1 <= Om) by lra.
  assert (Hin : forall b k, (b < 2 ^ (p - s - 1))%nat -> (k < 2 ^ s)%nat -> (b * (2 * 2 ^ s) + k + 2 ^ s < 2 ^ p)%nat).
  { intros b k Hb Hk. rewrite (half_split p s) by lia. nia. }
  assert (St : exists bp bm twr, stages rnd p twl (S s) x = stage_list bp bm (2 ^ s) twr y /\
     forall b k, (b < 2 ^ (p - s - 1))%nat -> (k < 2 ^ s)%nat -> let a := yf (b * (2 * 2 ^ s) + k)%nat in let c := yf (b * (2 * 2 ^ s) + k + 2 ^ s)%nat in
       Cabs (bp (twr k) a c - (a + W d (2 ^ S s) k * c))%C <= alpha * (Cabs a + Cabs c) + beta /\ Cabs (bm (twr k) a c - (a - W d (2 ^ S s) k * c))%C <= alpha * (Cabs a + Cabs c) + beta).
  { destruct s as [|s].
    - exists (bp0 rnd), (bm0 rnd), (fun _ => C1). split; [reflexivity|]. intros b k Hb Hk a c. assert (k = 0%nat) by (change (2 ^ 0)%nat with 1%nat in Hk; lia). subst k. rewrite W_0.
      replace (C1 * c)%C with c by ring. apply butterfly0_error with (V := V); auto; apply (Cabs_le_vnorm _ yf); specialize (Hin b 0%nat Hb Hk); lia.
    - exists (bp1 rnd), (bm1 rnd), (fun k => nth (k * 2 ^ (p - S s - 1)) twl C0). split; [reflexivity|]. intros b k Hb Hk a c. specialize (Hin b k Hb Hk).
      apply butterfly_error with (V := V); auto; [apply W_abs| |apply (Cabs_le_vnorm _ yf); lia|apply (Cabs_le_vnorm _ yf); lia].
      rewrite <- (W_stage d p (S s) k) by lia. apply Htw. apply tw_in; lia. }
  destruct St as (bp & bm & twr & E & Hb). unfold run_error. rewrite E. cbn [exact_stages].
  assert (Ly : length y = (2 ^ p)%nat) by (unfold y; rewrite stages_length; auto).
  rewrite (vnorm_ext _ _ (fun i => (stagef bp bm (2 ^ s) twr yf i - stagef xp xm (2 ^ s) (W d (2 ^ S s)) yf i) + stagef xp xm (2 ^ s) (W d (2 ^ S s)) (fun i => yf i - exact_stages d s v i) i)%C).
  2:{ intros i Hi. unfold stage_list. rewrite Ly, nth_tab by auto. fold yf. rewrite <- exact_sub. ring. }
  eapply Rle_trans; [apply vnorm_add|].
  pose proof (stage_error bp bm (2 ^ (p - s - 1)) (2 ^ s) (W d (2 ^ S s)) twr yf Hb) as SE. pose proof (exact_norm (2 ^ (p - s - 1)) (2 ^ s) (W d (2 ^ S s)) (fun i => yf i - exact_stages d s v i)%C ltac:(intros; apply W_abs)) as EN.
  rewrite <- (half_split p s) in SE, EN by lia. fold V in SE. fold B in SE. rewrite EN. fold (run_error s).
  change (vnorm (2 ^ p) (fun i => yf i - exact_stages d s v i)%C) with (run_error s).
  pose proof eps_pos as E0. pose proof N_pos as N0. pose proof B_pos as B0. pose proof sqrt2_bounds as R2. set (r := sqrt 2) in *.
  assert (rr : r * r = 2) by (apply sqrt_sqrt; lra).
  assert (R0 : 1 <= r ^ s) by (apply pow_R1_Rle; lra). assert (A0 : 0 <= alpha) by (unfold alpha; lra).
  apply Rle_trans with (2 * alpha * (r ^ s * (N + run_bound s)) + B + r * (r ^ s * run_bound s)).
  { assert (2 * alpha * V <= 2 * alpha * (r ^ s * (N + run_bound s))) by (apply Rmult_le_compat_l; lra). assert (r * run_error s <= r * (r ^ s * run_bound s)) by (apply Rmult_le_compat_l; lra). lra. }
  assert (Nb : 0 <= N + run_bound s).
  { replace (N + run_bound s) with ((1 + eps) ^ s * (N + INR s * B)) by (unfold run_bound; ring). apply Rmult_le_pos; [apply pow_le; lra|]. pose proof (pos_INR s). assert (0 <= INR s * B) by (apply Rmult_le_pos; auto). lra. }
  assert (K1 : 2 * alpha * (r ^ s * (N + run_bound s)) <= r ^ S s * (eps * (N + run_bound s))).
  { cbn [pow]. replace (r * r ^ s * (eps * (N + run_bound s))) with (r * eps * (r ^ s * (N + run_bound s))) by ring. apply Rmult_le_compat_r; [apply Rmult_le_pos; lra|]. unfold eps. nra. }
  assert (K2 : B <= r ^ S s * ((1 + eps) ^ S s * B)).
  { rewrite <- (Rmult_1_l B) at 1. rewrite <- Rmult_assoc. apply Rmult_le_compat_r; auto. assert (1 <= (1 + eps) ^ S s) by (apply pow_R1_Rle; lra). assert (1 <= r ^ S s) by (apply pow_R1_Rle; lra). nra. }
  replace (r ^ S s * run_bound (S s)) with (r ^ S s * (eps * (N + run_bound s)) + r ^ S s * ((1 + eps) ^ S s * B) + r * (r ^ s * run_bound s)); [lra|].
  unfold run_bound. rewrite S_INR. cbn [pow]. ring.
Qed.

Lemma run_ok : run_error p <= sqrt 2 ^ p * run_bound p.
Proof using All.
  assert (G : forall s, (s <= p)%nat -> run_error s <= sqrt 2 ^ s * run_bound s).
  { induction s as [|s IH]; intros Hs; [|apply run_step; [lia|apply IH; lia]].
    unfold run_error, run_bound. cbn [stages exact_stages pow INR]. assert (Z : vnorm (2 ^ p) (fun i => nth i x C0 - v i)%C = 0); [|rewrite Z; lra].
    unfold vnorm. rewrite Rsum_0; [apply sqrt_0|]. intros i _. unfold v. replace (nth i x C0 - nth i x C0)%C with C0 by ring. unfold Cnorm2, C0. cbn [fst snd]. ring. }
  apply G. auto.
Qed.

End Run.

End Error.
