(** Property theorems C84: abs, conj and polar. *)
From Coq Require Import Reals List ZArith Bool Lia Lra.
From Verif Require Import Base.Outcome Base.Cplx Model.Integers Model.MathFunctions.
Import ListNotations.
Local Open Scope R_scope.

(** C84.  The absolute value of an integer of any type is exact, except that of the smallest
    value of int and wider types, which is undefined. *)
Theorem C84_abs_integer : forall w signed v, In w [8; 16; 32; 64]%Z -> fits (Ity w signed) v ->
  let smallest := signed = true /\ (32 <= w)%Z /\ v = (- 2 ^ (w - 1))%Z in
  (~ smallest -> abs_integer (Ity w signed) v = Ok (Z.abs v)) /\
  (smallest -> abs_integer (Ity w signed) v = UB).
Proof.
  intros w signed v Hw [Lo Hi] smallest. unfold abs_integer, fitsb, smallest. clear smallest.
  destruct signed; cbn [isigned iwidth] in *; unfold imin, imax in *; cbn [isigned iwidth] in *.
  - unfold promote. cbn [iwidth]. cbn [In] in Hw. destruct Hw as [<-|[<-|[<-|[<-|[]]]]]; cbn in *.
    1,2: split; [intros _|intros (_ & Q & _); lia]; rewrite (proj2 (Z.leb_le (-2147483648) (Z.abs v))), (proj2 (Z.leb_le (Z.abs v) 2147483647)) by lia; reflexivity.
    all: split; [intros N; rewrite (proj2 (Z.leb_le _ (Z.abs v))), (proj2 (Z.leb_le (Z.abs v) _)) by (try lia; assert (v <> _) by (intro Q; apply N; repeat split; [lia|exact Q]); lia); reflexivity
                |intros (_ & _ & ->); reflexivity].
  - split; [intros _; f_equal; lia|intros (Q & _); discriminate].
Qed.

(** Magnitudes: zero only at zero, multiplicative, triangle inequality, unchanged by conj. *)
Theorem C84_abs : forall z w : C,
  0 <= abs_complex z /\ (abs_complex z = 0 <-> z = C0) /\ abs_complex (z * w)%C = abs_complex z * abs_complex w /\
  abs_complex (z + w)%C <= abs_complex z + abs_complex w /\ abs_complex (conj_complex z) = abs_complex z /\
  (z * conj_complex z)%C = RtoC (abs_complex z * abs_complex z) /\
  (forall x, abs_complex (RtoC x) = abs_float x /\ conj_float x = RtoC x).
Proof.
  intros [a b] [c d]. assert (S : forall x y : R, 0 <= x * x + y * y) by (intros; nra).
  assert (Q : forall x y : R, 0 <= sqrt (x * x + y * y)) by (intros; apply sqrt_pos).
  assert (QQ : forall x y : R, sqrt (x * x + y * y) * sqrt (x * x + y * y) = x * x + y * y) by (intros; apply sqrt_sqrt; auto).
  unfold abs_complex, conj_complex, conj_float, abs_float. cbn [fst snd Cadd Cmul].
  split; [auto|]. split; [split|]. { intros H. apply sqrt_eq_0 in H; auto. unfold C0. f_equal; nra. }
  { intros H. injection H as -> ->. replace (0 * 0 + 0 * 0) with 0 by ring. apply sqrt_0. }
  split. { rewrite <- sqrt_mult by auto. f_equal. unfold Cmul. cbn [fst snd]. ring. }
  split. { pose proof (Q a b). pose proof (Q c d). pose proof (QQ a b). pose proof (QQ c d).
    apply Rsqr_incr_0_var; [|lra]. unfold Rsqr. rewrite QQ.
    assert (CS : a * c + b * d <= sqrt (a * a + b * b) * sqrt (c * c + d * d)).
    { apply Rsqr_incr_0_var; [unfold Rsqr|apply Rmult_le_pos; auto].
      apply Rle_trans with ((a * a + b * b) * (c * c + d * d)). 2: { rewrite <- (QQ a b) at 1. rewrite <- (QQ c d) at 1. right. ring. }
      pose proof (Rle_0_sqr (a * d - b * c)) as P. unfold Rsqr in P. nra. }
    nra. }
  split. { f_equal. ring. }
  split. { rewrite QQ. unfold Cmul, RtoC. cbn [fst snd]. f_equal; ring. }
  intros x. unfold RtoC. cbn [fst snd]. split.
  - replace (x * x + 0 * 0) with (Rsqr x) by (unfold Rsqr; ring). apply sqrt_Rsqr_abs.
  - unfold conj_complex. cbn [fst snd]. rewrite Ropp_0. reflexivity.
Qed.

(** polar(r, theta) has magnitude r, depends on theta modulo one turn, multiplies magnitudes and
    adds angles; every number is of this form; a negative r is undefined. *)
Theorem C84_polar : forall r theta, 0 <= r ->
  exists z, polar r theta = Ok z /\ abs_complex z = r /\ polar r (theta + 2 * PI) = Ok z /\
    polar r (- theta) = Ok (conj_complex z) /\
    forall s phi w, polar s phi = Ok w -> polar (r * s) (theta + phi) = Ok (z * w)%C.
Proof.
  intros r theta Hr. exists (r * cos theta, r * sin theta). unfold polar. destruct (Rle_dec 0 r) as [_|N]; [|tauto].
  split; [reflexivity|]. split.
  { unfold abs_complex. cbn [fst snd]. replace (r * cos theta * (r * cos theta) + r * sin theta * (r * sin theta)) with (Rsqr r * (Rsqr (sin theta) + Rsqr (cos theta))) by (unfold Rsqr; ring).
    rewrite sin2_cos2, Rmult_1_r. apply sqrt_Rsqr. auto. }
  split. { rewrite cos_plus, sin_plus, cos_2PI, sin_2PI. apply (f_equal Ok), injective_projections; cbn [fst snd]; ring. }
  split. { rewrite cos_neg, sin_neg. unfold conj_complex. cbn [fst snd]. apply (f_equal Ok), injective_projections; cbn [fst snd]; ring. }
  intros s phi w H. destruct (Rle_dec 0 s) as [Hs|]; [|discriminate]. injection H as <-.
  destruct (Rle_dec 0 (r * s)) as [_|N]; [|exfalso; apply N, Rmult_le_pos; auto].
  rewrite cos_plus, sin_plus. unfold Cmul. cbn [fst snd]. apply (f_equal Ok), injective_projections; cbn [fst snd]; ring.
Qed.

Theorem C84_polar_covers : forall z, exists r theta, 0 <= r /\ polar r theta = Ok z.
Proof.
  intros [a b]. set (r := sqrt (a * a + b * b)). assert (Hr : 0 <= r) by apply sqrt_pos.
  assert (Q : r * r = a * a + b * b) by (apply sqrt_sqrt; nra).
  destruct (Req_dec r 0) as [E|E].
  - exists 0, 0. split; [lra|]. unfold polar. destruct (Rle_dec 0 0); [|lra]. rewrite E in Q. apply (f_equal Ok), injective_projections; cbn [fst snd]; nra.
  - assert (P : 0 < r) by lra. assert (B : -1 <= a / r <= 1).
    { assert (-r <= a <= r) by (split; nra). split; apply Rmult_le_reg_r with r; auto; replace (a / r * r) with a by (field; lra); lra. }
    assert (S : (b / r) * (b / r) = 1 - (a / r) * (a / r)).
    { replace (1 - a / r * (a / r)) with ((r * r - a * a) / (r * r)) by (field; lra). rewrite Q. replace (a * a + b * b - a * a) with (b * b) by ring. rewrite <- Q. field. lra. }
    assert (K : sqrt (1 - Rsqr (a / r)) = Rabs (b / r)) by (unfold Rsqr; rewrite <- S; apply sqrt_Rsqr_abs).
    exists r, (if Rle_dec 0 b then acos (a / r) else - acos (a / r)). split; [auto|]. unfold polar. destruct (Rle_dec 0 r); [|tauto].
    destruct (Rle_dec 0 b) as [Hb|Hb].
    + rewrite cos_acos, sin_acos, K by auto. rewrite Rabs_right. 2: { apply Rle_ge, Rmult_le_pos; auto. left. apply Rinv_0_lt_compat; auto. }
      apply (f_equal Ok), injective_projections; cbn [fst snd]; field; lra.
    + rewrite cos_neg, sin_neg, cos_acos, sin_acos, K by auto. rewrite Rabs_left.
      2: { apply Rmult_lt_reg_r with r; auto. replace (b / r * r) with b by (field; lra). lra. }
      apply (f_equal Ok), injective_projections; cbn [fst snd]; field; lra.
Qed.

Theorem C84_polar_negative_undefined : forall r theta, r < 0 -> polar r theta = UB.
Proof. intros r theta H. unfold polar. destruct (Rle_dec 0 r); [lra|reflexivity]. Qed.

(** |-128| = 128 for 8 bits, undefined for the smallest int; i from its angle; |3 - 4i| = 5. *)
Example C84_example : abs_integer (Ity 8 true) (-128) = Ok 128%Z /\ abs_integer (Ity 32 true) (-2147483648) = UB /\
  abs_integer (Ity 64 true) (-2147483648) = Ok 2147483648%Z /\ abs_integer (Ity 64 false) 18446744073709551615 = Ok 18446744073709551615%Z /\
  polar 2 (PI / 2) = Ok (0, 2) /\ abs_complex (3, -4) = 5.
Proof.
  do 4 (split; [reflexivity|]). split.
  - unfold polar. destruct (Rle_dec 0 2); [|lra]. rewrite cos_PI2, sin_PI2. apply (f_equal Ok), injective_projections; cbn [fst snd]; ring.
  - unfold abs_complex. cbn [fst snd]. replace (3 * 3 + -4 * -4) with (5 * 5) by ring. apply sqrt_square. lra.
Qed.

Print Assumptions C84_abs_integer.
Print Assumptions C84_abs.
Print Assumptions C84_polar.
Print Assumptions C84_polar_covers.
Print Assumptions C84_polar_negative_undefined.
