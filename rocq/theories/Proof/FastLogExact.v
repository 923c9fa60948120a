(** How far fast_log2 is from the logarithm in exact arithmetic. *)
From Coq Require Import Reals List ZArith Lia Lra.
From Verif Require Import Base.PolyCheck Base.LogBounds.
Import ListNotations.
Local Open Scope R_scope.

Local Notation a := (12422551499 / 100000000).
Local Notation b := (1498030302 / 1000000000).
Local Notation c := (172587999 / 100000000).
Local Notation d := (3520887068 / 10000000000).

(** fast_log2 on [1, 2] without rounding. *)
Definition flog (x : R) : R := 126 + x - a - b * (x / 2) - c / (d + x / 2).

(** flog times a denominator, for x = (1 + z) / (1 - z). *)
Definition den (z : R) : R := (1 - z) * (2 * d * (1 - z) + (1 + z)).
Definition num (z : R) : R := (126 - a) * den z + (1 - b / 2) * (1 + z) * (2 * d * (1 - z) + (1 + z)) - 2 * c * (1 - z) ^ 2.

Definition poly1l : list Z := [30187616953853309670624567259689910272; 199822881822123930832532274393686999040; (-30997491303922788397703485656485855232); 1573242506476416663552000000000000000; (-28259783867898003456000000000000000); 151890646899150028800000000000000; (-1839829678899609600000000000000); 12539050704460800000000000000; (-142595926254000000000000000); 1085957650500000000000000; (-12034281970703125000000); (-26331050933837890625)]%Z.
Definition scale1l : Z := 2556424320523960320000000000000000000000000%Z.
Definition poly1u : list Z := [30187704057052213951424487116595265536; 199561572691466561019974346073461227520; (-30995326308342995046198452706676310016); 1573242506476416663552000000000000000; (-28259783867898003456000000000000000); 151890646899150028800000000000000; (-1839829678899609600000000000000); 12539050704460800000000000000; (-142595926254000000000000000); 1085957650500000000000000; (-12034281970703125000000); (-26331050933837890625)]%Z.
Definition scale1u : Z := 2556424320523960320000000000000000000000000%Z.
Definition poly2l : list Z := [40818395456114841364971762920096570630209536; (-18381240859921113573943042316468125937172480); 2792425869754618106856348984360087777705984; (-141768028743602858385997824000000000000000); 2546545643904024887427072000000000000000; (-13687169973376207395225600000000000000); 165790732025001620275200000000000000; (-1129918937080371609600000000000000); 12849604106600448000000000000000; (-97857815801856000000000000000); 1084433216944000000000000000; (-10208878649593750000000000); 108308537736328125000000; 236979458404541015625]%Z.
Definition scale2l : Z := 230364508371055112355840000000000000000000000000%Z.
Definition poly2u : list Z := [40818513233308841228900473384451612992339968; (-18357694852989207931828076424961368250122240); 2792230775306715633605458905393544971681792; (-141768028743602858385997824000000000000000); 2546545643904024887427072000000000000000; (-13687169973376207395225600000000000000); 165790732025001620275200000000000000; (-1129918937080371609600000000000000); 12849604106600448000000000000000; (-97857815801856000000000000000); 1084433216944000000000000000; (-10208878649593750000000000); 108308537736328125000000; 236979458404541015625]%Z.
Definition scale2u : Z := 230364508371055112355840000000000000000000000000%Z.

Lemma poly1l_ok : forall t, peval poly1l t = IZR scale1l * (atanh5 (t / 96) * den (t / 96) - 693146 / 1000000 * (num (t / 96) - 1 / 100000 * den (t / 96))).
Proof. intros t. unfold poly1l, scale1l, atanh5, num, den. cbn [peval]. field. Qed.
Lemma poly1u_ok : forall t, peval poly1u t = IZR scale1u * (atanh5 (t / 96) * den (t / 96) - 693148 / 1000000 * (num (t / 96) - 1 / 100000 * den (t / 96))).
Proof. intros t. unfold poly1u, scale1u, atanh5, num, den. cbn [peval]. field. Qed.
Lemma poly2l_ok : forall t, peval poly2l t = IZR scale2l * (693146 / 1000000 * (num (t / 96) + 15 / 100000 * den (t / 96)) - (atanh5 (t / 96) + 9 / 4 * ((t / 96) ^ 11 / 11)) * den (t / 96)).
Proof. intros t. unfold poly2l, scale2l, atanh5, num, den. cbn [peval]. field. Qed.
Lemma poly2u_ok : forall t, peval poly2u t = IZR scale2u * (693148 / 1000000 * (num (t / 96) + 15 / 100000 * den (t / 96)) - (atanh5 (t / 96) + 9 / 4 * ((t / 96) ^ 11 / 11)) * den (t / 96)).
Proof. intros t. unfold poly2u, scale2u, atanh5, num, den. cbn [peval]. field. Qed.

Lemma checks : pcheck 32 poly1l = true /\ pcheck 32 poly1u = true /\ pcheck 32 poly2l = true /\ pcheck 32 poly2u = true.
Proof. repeat split; vm_compute; reflexivity. Qed.

Lemma from_check : forall p s (f : R -> R), pcheck 32 p = true -> (forall t, peval p t = IZR s * f (t / 96)) -> (0 < s)%Z -> forall z, 0 <= z <= 1 / 3 -> 0 <= f z.
Proof.
  intros p s f H E Hs z Hz. pose proof (pcheck_ok 31 p H (96 * z)) as P. rewrite E in P. replace (96 * z / 96) with z in P by field.
  replace (INR 32) with 32 in P by (rewrite INR_IZR_INZ; reflexivity). apply IZR_lt in Hs. specialize (P ltac:(lra)). nra.
Qed.

(** A linear function that is not negative at two points is not negative between them. *)
Lemma between : forall u v k l h, l <= k <= h -> 0 <= u - l * v -> 0 <= u - h * v -> 0 <= u - k * v.
Proof. intros u v k l h H A B. destruct (Rle_lt_dec 0 v); nra. Qed.

Theorem flog_error : forall x, 1 <= x <= 2 -> - (15 / 100000) <= flog x - ln x / ln 2 <= 1 / 100000.
Proof.
  intros x Hx. set (z := (x - 1) / (x + 1)).
  assert (Hz : 0 <= z <= 1 / 3).
  { unfold z. split; [apply Rmult_le_pos; [lra|left; apply Rinv_0_lt_compat; lra]|]. apply Rmult_le_reg_r with (x + 1); [lra|]. unfold Rdiv. rewrite Rmult_assoc, Rinv_l by lra. lra. }
  assert (Ex : x = (1 + z) / (1 - z)) by (unfold z; field; lra).
  assert (Hd : 0 < den z) by (unfold den; apply Rmult_lt_0_compat; lra).
  assert (Ef : flog x * den z = num z).
  { unfold flog, num, den. rewrite Ex. field. split; lra. }
  pose proof (ln_bounds z Hz) as Hl. rewrite <- Ex in Hl. pose proof ln2_bounds as H2. destruct checks as (C1 & C2 & C3 & C4).
  pose proof (from_check _ scale1l (fun z => atanh5 z * den z - 693146 / 1000000 * (num z - 1 / 100000 * den z)) C1 poly1l_ok eq_refl z Hz) as P1.
  pose proof (from_check _ scale1u (fun z => atanh5 z * den z - 693148 / 1000000 * (num z - 1 / 100000 * den z)) C2 poly1u_ok eq_refl z Hz) as P2.
  pose proof (from_check _ scale2l (fun z => 693146 / 1000000 * (num z + 15 / 100000 * den z) - (atanh5 z + 9 / 4 * (z ^ 11 / 11)) * den z) C3 poly2l_ok eq_refl z Hz) as P3.
  pose proof (from_check _ scale2u (fun z => 693148 / 1000000 * (num z + 15 / 100000 * den z) - (atanh5 z + 9 / 4 * (z ^ 11 / 11)) * den z) C4 poly2u_ok eq_refl z Hz) as P4.
  cbv beta in *. rewrite <- Ef in P1, P2, P3, P4.
  pose proof (between _ _ _ _ _ H2 P1 P2) as Q1.
  assert (Q2 : 0 <= - ((atanh5 z + 9 / 4 * (z ^ 11 / 11)) * den z) - ln 2 * (- (flog x * den z + 15 / 100000 * den z))).
  { apply (between _ _ _ _ _ H2); lra. }
  set (U := atanh5 z + 9 / 4 * (z ^ 11 / 11)) in *. set (L := atanh5 z) in *. set (F := flog x) in *. set (D := den z) in *. set (k := ln 2) in *. set (l := ln x) in *.
  clearbody U L F D k l. clear - Hd Hl H2 Q1 Q2.
  assert (A1 : 0 <= D * (L - k * (F - 1 / 100000))) by (replace (D * (L - k * (F - 1 / 100000))) with (L * D - k * (F * D - 1 / 100000 * D)) by ring; exact Q1).
  assert (A2 : 0 <= D * (k * (F + 15 / 100000) - U)) by (replace (D * (k * (F + 15 / 100000) - U)) with (- (U * D) - k * - (F * D + 15 / 100000 * D)) by ring; exact Q2).
  assert (B1 : 0 <= L - k * (F - 1 / 100000)) by nra. assert (B2 : 0 <= k * (F + 15 / 100000) - U) by nra.
  assert (E : l = k * (l / k)) by (field; lra). set (r := l / k) in *. clearbody r. split; nra.
Qed.
