(** Half-precision arithmetic carried out in single precision is half-precision arithmetic. *)
From Coq Require Import Reals ZArith List Lia Lra.
From Flocq Require Import Core Relative Double_rounding IEEE754.BinarySingleNaN.
From Verif Require Import Base.Outcome Base.OutcomeFacts Base.Alias Model.SimdBatch Spec.Rounding Spec.Batch.
Import ListNotations.
Local Open Scope R_scope.

Notation F16 := (FLT_exp (-24) 11).
Notation F32 := (FLT_exp (-149) 24).

Section Directed.
Variables (fexp1 fexp2 : Z -> Z).
Context {V1 : Valid_exp fexp1} {V2 : Valid_exp fexp2}.
Hypothesis Hincl : forall x, generic_format radix2 fexp1 x -> generic_format radix2 fexp2 x.

Lemma double_down : forall x,
  round radix2 fexp1 Zfloor (round radix2 fexp2 Zfloor x) = round radix2 fexp1 Zfloor x.
Proof using All.
  intros x. apply Rle_antisym.
  - apply round_le; auto with typeclass_instances. apply round_DN_pt; auto with typeclass_instances.
  - apply round_ge_generic; auto with typeclass_instances.
    + apply generic_format_round; auto with typeclass_instances.
    + apply round_DN_pt; auto with typeclass_instances.
      * apply Hincl, generic_format_round; auto with typeclass_instances.
      * apply round_DN_pt; auto with typeclass_instances.
Qed.

Lemma double_up : forall x,
  round radix2 fexp1 Zceil (round radix2 fexp2 Zceil x) = round radix2 fexp1 Zceil x.
Proof using All.
  intros x. apply Rle_antisym.
  - apply round_le_generic; auto with typeclass_instances.
    + apply generic_format_round; auto with typeclass_instances.
    + apply round_UP_pt; auto with typeclass_instances.
      * apply Hincl, generic_format_round; auto with typeclass_instances.
      * apply round_UP_pt; auto with typeclass_instances.
  - apply round_le; auto with typeclass_instances. apply round_UP_pt; auto with typeclass_instances.
Qed.

Lemma double_zero : forall x,
  round radix2 fexp1 Ztrunc (round radix2 fexp2 Ztrunc x) = round radix2 fexp1 Ztrunc x.
Proof using All.
  intros x. destruct (Rle_or_lt 0 x) as [H|H].
  - rewrite !(round_ZR_DN radix2 _ x) by auto. rewrite round_ZR_DN; [apply double_down|].
    apply round_ge_generic; auto with typeclass_instances. apply generic_format_0.
  - rewrite !(round_ZR_UP radix2 _ x) by lra. rewrite round_ZR_UP; [apply double_up|].
    apply round_le_generic; auto with typeclass_instances; [apply generic_format_0|lra].
Qed.
End Directed.

Lemma incl_16_32 : forall x, generic_format radix2 F16 x -> generic_format radix2 F32 x.
Proof.
  intros x. apply generic_inclusion_mag. intros _. unfold FLT_exp. lia.
Qed.

Lemma double_round : forall m v,
  (forall c, round_round_eq radix2 F16 F32 c c v) ->
  round radix2 F16 (round_mode m) (round radix2 F32 (round_mode m) v) = round radix2 F16 (round_mode m) v.
Proof.
  intros m v H. destruct m; cbn [round_mode].
  - apply H.
  - apply double_zero; auto with typeclass_instances. exact incl_16_32.
  - apply double_down; auto with typeclass_instances. exact incl_16_32.
  - apply double_up; auto with typeclass_instances. exact incl_16_32.
  - apply H.
Qed.

Lemma format16 : forall x : f16, FLT_format radix2 (-24) 11 (B2R x).
Proof. intros x. exact (FLT_format_B2R 11 16 _ x). Qed.

Lemma f16_bound : forall x : f16, Rabs (B2R x) < bpow radix2 16.
Proof. intros x. apply abs_B2R_lt_emax. Qed.

(** Widening a half-precision number is exact. *)
Lemma widen_spec : forall x : f16,
  let y := convert 24 128 mode_NE x in
  B2R y = B2R x /\ Bsign y = Bsign x /\ is_finite y = is_finite x /\ is_nan y = is_nan x.
Proof.
  intros x. destruct x as [s|s| |s k e Hk]; cbn [convert]; auto.
  set (x := B754_finite s k e Hk : f16).
  pose proof (binary_normalize_correct 24 128 _ _ mode_NE (SpecFloat.cond_Zopp s (Zpos k)) e s) as H.
  cbv zeta in H.
  assert (Hr : round radix2 F32 ZnearestE (B2R x) = B2R x).
  { apply round_generic; auto with typeclass_instances. apply incl_16_32.
    apply generic_format_FLT, format16. }
  change (F2R (Float radix2 (SpecFloat.cond_Zopp s (Zpos k)) e)) with (B2R x) in H.
  change (SpecFloat.fexp 24 128) with F32 in H. cbn [round_mode] in H. rewrite Hr in H.
  rewrite Rlt_bool_true in H.
  2:{ apply Rlt_trans with (1 := f16_bound x). apply bpow_lt. lia. }
  destruct H as (H1 & H2 & H3). rewrite H1, H2, H3. repeat split.
  - subst x. cbn [Bsign B2R]. destruct s.
    + rewrite Rcompare_Lt; auto. now apply F2R_lt_0.
    + rewrite Rcompare_Gt; auto. now apply F2R_gt_0.
  - destruct (binary_normalize 24 128 _ _ mode_NE _ e s); auto; discriminate.
Qed.

Definition sign_of (v : R) (z : bool) : bool :=
  match Rcompare v 0 with Eq => z | Lt => true | Gt => false end.

(** Narrowing a finite single-precision number. *)
Lemma narrow_spec : forall m (x : f32), is_finite x = true ->
  let y := convert 11 16 m x in
  if Rlt_bool (Rabs (round radix2 F16 (round_mode m) (B2R x))) (bpow radix2 16) then
    B2R y = round radix2 F16 (round_mode m) (B2R x) /\ is_finite y = true /\ Bsign y = Bsign x
  else B2SF y = binary_overflow 11 16 m (Bsign x).
Proof.
  intros m x Hf. destruct x as [s|s| |s k e Hk]; try discriminate; cbn [convert]; cbv zeta.
  - cbn [B2R]. rewrite round_0, Rabs_R0, Rlt_bool_true; auto with typeclass_instances.
    apply bpow_gt_0.
  - pose proof (binary_normalize_correct 11 16 _ _ m (SpecFloat.cond_Zopp s (Zpos k)) e s) as H.
    cbv zeta in H. change (SpecFloat.fexp 11 16) with F16 in H. cbn [B2R Bsign].
    assert (Hs : (s = true /\ F2R (Float radix2 (SpecFloat.cond_Zopp s (Zpos k)) e) < 0) \/
                 (s = false /\ 0 < F2R (Float radix2 (SpecFloat.cond_Zopp s (Zpos k)) e))).
    { destruct s; [left|right]; split; auto; [now apply F2R_lt_0|now apply F2R_gt_0]. }
    destruct (Rlt_bool (Rabs _) _).
    + destruct H as (H1 & H2 & H3). repeat split; auto.
      destruct Hs as [[-> Hs]|[-> Hs]]; [rewrite Rcompare_Lt in H3|rewrite Rcompare_Gt in H3]; auto.
    + destruct Hs as [[-> Hs]|[-> Hs]]; [rewrite Rlt_bool_true in H|rewrite Rlt_bool_false in H]; auto; lra.
Qed.

(** The two routes to a half-precision result of exact value [v] agree. *)
Lemma routes_agree : forall m v sg (r : f16) (w : f32),
  (forall c, round_round_eq radix2 F16 F32 c c v) ->
  (* the half-precision operation *)
  (if Rlt_bool (Rabs (round radix2 F16 (round_mode m) v)) (bpow radix2 16) then
     B2R r = round radix2 F16 (round_mode m) v /\ is_finite r = true /\ Bsign r = sg
   else B2SF r = binary_overflow 11 16 m sg) ->
  (* the single-precision operation *)
  B2R w = round radix2 F32 (round_mode m) v -> is_finite w = true -> Bsign w = sg ->
  convert 11 16 m w = r.
Proof.
  intros m v sg r w Hd Hr Hw Hf Hs.
  pose proof (narrow_spec m w Hf) as H. cbv zeta in H. rewrite Hw, double_round in H by exact Hd.
  destruct (Rlt_bool _ _).
  - destruct H as (H1 & H2 & H3). destruct Hr as (R1 & R2 & R3).
    apply B2R_Bsign_inj; congruence.
  - apply B2SF_inj. rewrite H, Hr, Hs. reflexivity.
Qed.

Lemma no_overflow32 : forall m v, Rabs v <= bpow radix2 32 ->
  Rlt_bool (Rabs (round radix2 F32 (round_mode m) v)) (bpow radix2 128) = true.
Proof.
  intros m v Hv. apply Rlt_bool_true. apply Rle_lt_trans with (bpow radix2 32).
  - apply abs_round_le_generic; auto with typeclass_instances.
    apply generic_format_bpow. unfold FLT_exp. lia.
  - apply bpow_lt. lia.
Qed.

Lemma bp16 : bpow radix2 16 = 65536. Proof. cbn. lra. Qed.
Lemma bp32 : bpow radix2 32 = 4294967296. Proof. cbn. lra. Qed.

Lemma half_add_lane : forall m (a b : f16),
  convert 11 16 m (Bplus m (convert 24 128 mode_NE a) (convert 24 128 mode_NE b)) = Bplus m a b.
Proof.
  intros m a b.
  destruct (is_finite a) eqn:Fa; [destruct (is_finite b) eqn:Fb|].
  - pose proof (widen_spec a) as (A1 & A2 & A3 & _). pose proof (widen_spec b) as (B1 & B2 & B3 & _).
    pose proof (Bplus_correct 24 128 _ _ m (convert 24 128 mode_NE a) (convert 24 128 mode_NE b)) as H32.
    rewrite A3, B3, A1, B1, A2, B2 in H32. specialize (H32 Fa Fb).
    change (SpecFloat.fexp 24 128) with F32 in H32.
    rewrite no_overflow32 in H32.
    2:{ pose proof (f16_bound a) as Ha. pose proof (f16_bound b) as Hb. rewrite bp16 in *. rewrite bp32.
        eapply Rle_trans; [apply Rabs_triang|]. lra. }
    destruct H32 as (W1 & W2 & W3).
    pose proof (Bplus_correct 11 16 _ _ m a b Fa Fb) as H16. change (SpecFloat.fexp 11 16) with F16 in H16.
    eapply routes_agree with (v := B2R a + B2R b); [| | exact W1 | exact W2 | exact W3].
    + intros c. apply round_round_plus_FLT; try lia; auto with typeclass_instances; apply format16.
    + destruct (Rlt_bool _ _) eqn:E; [exact H16|]. destruct H16 as [H1 H2]. rewrite H1. f_equal.
      assert (Hnz : round radix2 F16 (round_mode m) (B2R a + B2R b) <> 0).
      { intros Z. rewrite Z, Rabs_R0, Rlt_bool_true in E; [discriminate|apply bpow_gt_0]. }
      assert (Hs : forall x : f16, (Bsign x = true -> B2R x <= 0) /\ (Bsign x = false -> 0 <= B2R x)).
      { intros [s|s| |s k e Hk]; cbn [Bsign B2R]; split; intros; subst; try lra.
        - left. now apply F2R_lt_0.
        - left. now apply F2R_gt_0. }
      pose proof (Hs a) as [Sa Ta]. pose proof (Hs b) as [Sb Tb].
      unfold sign_of. destruct (Bsign a).
      * assert (B2R a + B2R b <= 0) by (specialize (Sa eq_refl); specialize (Sb (eq_sym H2)); lra).
        rewrite Rcompare_Lt; auto. destruct H as [|H0]; auto. exfalso. apply Hnz. rewrite H0.
        apply round_0; auto with typeclass_instances.
      * assert (0 <= B2R a + B2R b) by (specialize (Ta eq_refl); specialize (Tb (eq_sym H2)); lra).
        rewrite Rcompare_Gt; auto. destruct H as [|H0]; auto. exfalso. apply Hnz. rewrite <- H0.
        apply round_0; auto with typeclass_instances.
  - destruct a as [s|s| |s k e Hk]; try discriminate; destruct b as [s'|s'| |s' k' e' Hk']; try discriminate;
      cbn [convert]; try reflexivity;
      match goal with |- context [binary_normalize 24 128 ?P ?E ?mm ?z ?x ?s] =>
        pose proof (widen_spec (B754_finite s k e Hk : f16)) as (_ & _ & X & _); cbn [convert is_finite] in X;
        destruct (binary_normalize 24 128 P E mm z x s); try discriminate; reflexivity end.
  - destruct a as [s|s| |s k e Hk]; try discriminate; destruct b as [s'|s'| |s' k' e' Hk']; 
      cbn [convert]; try reflexivity.
    + cbn [Bplus]. destruct (Bool.eqb s s'); reflexivity.
    + match goal with |- context [binary_normalize 24 128 ?P ?E ?mm ?z ?x ?s] =>
        pose proof (widen_spec (B754_finite s' k' e' Hk' : f16)) as (_ & _ & X & _); cbn [convert is_finite] in X;
        destruct (binary_normalize 24 128 P E mm z x s); try discriminate; reflexivity end.
Qed.

Lemma minus_is_plus : forall p e (P : Prec_gt_0 p) (E : Prec_lt_emax p e) m (x y : binary_float p e),
  Bminus m x y = Bplus m x (Bopp y).
Proof. intros p e P E m [s|s| |s k x Hk] [s'|s'| |s' k' x' Hk']; reflexivity. Qed.

Lemma widen_opp : forall b : f16, Bopp (convert 24 128 mode_NE b) = convert 24 128 mode_NE (Bopp b).
Proof.
  intros b. destruct (is_finite b) eqn:Fb.
  - pose proof (widen_spec b) as (B1 & B2 & B3 & B4).
    pose proof (widen_spec (Bopp b)) as (O1 & O2 & O3 & _).
    apply B2R_Bsign_inj.
    + rewrite is_finite_Bopp. congruence.
    + rewrite O3, is_finite_Bopp. auto.
    + rewrite B2R_Bopp, O1, B2R_Bopp, B1. reflexivity.
    + rewrite Bsign_Bopp, O2, Bsign_Bopp, B2; auto.
      * destruct b; try discriminate; reflexivity.
      * rewrite B4. destruct b; try discriminate; reflexivity.
  - destruct b; try discriminate; reflexivity.
Qed.

Lemma half_sub_lane : forall m (a b : f16),
  convert 11 16 m (Bminus m (convert 24 128 mode_NE a) (convert 24 128 mode_NE b)) = Bminus m a b.
Proof. intros. rewrite !minus_is_plus, widen_opp. apply half_add_lane. Qed.

Lemma half_mul_lane : forall m (a b : f16),
  convert 11 16 m (Bmult m (convert 24 128 mode_NE a) (convert 24 128 mode_NE b)) = Bmult m a b.
Proof.
  intros m a b.
  destruct (is_finite a) eqn:Fa; [destruct (is_finite b) eqn:Fb|].
  - pose proof (widen_spec a) as (A1 & A2 & A3 & _). pose proof (widen_spec b) as (B1 & B2 & B3 & _).
    pose proof (Bmult_correct 24 128 _ _ m (convert 24 128 mode_NE a) (convert 24 128 mode_NE b)) as H32.
    rewrite A3, B3, A1, B1, A2, B2, Fa, Fb in H32.
    change (SpecFloat.fexp 24 128) with F32 in H32.
    rewrite no_overflow32 in H32.
    2:{ pose proof (f16_bound a) as Ha. pose proof (f16_bound b) as Hb. rewrite bp16 in *. rewrite bp32.
        rewrite Rabs_mult. pose proof (Rabs_pos (B2R a)). pose proof (Rabs_pos (B2R b)).
        replace 4294967296 with (65536 * 65536) by lra.
        apply Rmult_le_compat; lra. }
    destruct H32 as (W1 & W2 & W3). cbn [andb] in W2.
    pose proof (Bmult_correct 11 16 _ _ m a b) as H16. rewrite Fa, Fb in H16.
    change (SpecFloat.fexp 11 16) with F16 in H16.
    eapply routes_agree with (v := B2R a * B2R b) (sg := xorb (Bsign a) (Bsign b)); [| | exact W1 | exact W2 |].
    + intros c. unfold round_round_eq. apply round_round_mult_FLT; try lia; auto with typeclass_instances; apply format16.
    + destruct (Rlt_bool _ _) eqn:E; [|exact H16]. destruct H16 as (H1 & H2 & H3). cbn [andb] in H2.
      repeat split; auto. apply H3. destruct (Bmult m a b); try discriminate; reflexivity.
    + apply W3. destruct (Bmult m (convert 24 128 mode_NE a) (convert 24 128 mode_NE b)); try discriminate; reflexivity.
  - destruct a as [s|s| |s k e Hk]; try discriminate; destruct b as [s'|s'| |s' k' e' Hk']; try discriminate;
      cbn [convert]; try reflexivity;
      match goal with |- context [binary_normalize 24 128 ?P ?E ?mm ?z ?x ?s] =>
        pose proof (widen_spec (B754_finite s k e Hk : f16)) as (XR & XS & X & _); cbn [convert is_finite Bsign] in X, XS, XR;
        destruct (binary_normalize 24 128 P E mm z x s); try discriminate end; try reflexivity.
    + exfalso. cbn [B2R] in XR. symmetry in XR. revert XR. destruct s.
      * apply Rlt_not_eq. now apply F2R_lt_0.
      * apply Rgt_not_eq. now apply F2R_gt_0.
    + cbn [Bsign] in XS. subst. reflexivity.
  - destruct a as [s|s| |s k e Hk]; try discriminate; destruct b as [s'|s'| |s' k' e' Hk']; 
      cbn [convert]; try reflexivity.
    match goal with |- context [binary_normalize 24 128 ?P ?E ?mm ?z ?x ?s] =>
        pose proof (widen_spec (B754_finite s' k' e' Hk' : f16)) as (XR & XS & X & _); cbn [convert is_finite Bsign] in X, XS, XR;
        destruct (binary_normalize 24 128 P E mm z x s); try discriminate end; try reflexivity.
    + exfalso. cbn [B2R] in XR. symmetry in XR. revert XR. destruct s'.
      * apply Rlt_not_eq. now apply F2R_lt_0.
      * apply Rgt_not_eq. now apply F2R_gt_0.
    + cbn [Bsign] in XS. subst. reflexivity.
Qed.

Lemma half_sqrt_lane : forall m (a : f16),
  convert 11 16 m (Bsqrt m (convert 24 128 mode_NE a)) = Bsqrt m a.
Proof.
  intros m a. pose proof (widen_spec a) as (A1 & A2 & A3 & A4).
  destruct a as [s|[|]| |s k e Hk]; try reflexivity.
  destruct s.
  - remember (convert 24 128 mode_NE (B754_finite true k e Hk : f16)) as w.
    cbn [B2R Bsign is_finite] in A1, A2, A3. destruct w as [s|s| |s k' e' Hk']; try discriminate.
    + exfalso. cbn [B2R] in A1. symmetry in A1. revert A1. apply Rlt_not_eq. now apply F2R_lt_0.
    + cbn [Bsign] in A2. subst. reflexivity.
  - remember (B754_finite false k e Hk : f16) as a.
    remember (convert 24 128 mode_NE a) as w.
    assert (Hw : exists k' e' H', w = B754_finite false k' e' H').
    { rewrite Heqa in A1, A2, A3. cbn [B2R Bsign is_finite] in A1, A2, A3.
      destruct w as [s|s| |s k' e' Hk']; try discriminate.
      - exfalso. cbn [B2R] in A1. symmetry in A1. revert A1. apply Rgt_not_eq. now apply F2R_gt_0.
      - cbn [Bsign] in A2. subst. eauto. }
    destruct Hw as (k' & e' & H' & Hw).
    pose proof (Bsqrt_correct 24 128 _ _ m w) as (W1 & W2 & W3).
    pose proof (Bsqrt_correct 11 16 _ _ m a) as (R1 & R2 & R3).
    rewrite A1 in W1. rewrite A2 in W3.
    assert (W2' : is_finite (Bsqrt m w) = true) by (rewrite W2, Hw; reflexivity).
    assert (R2' : is_finite (Bsqrt m a) = true) by (rewrite R2, Heqa; reflexivity).
    eapply routes_agree with (v := sqrt (B2R a)) (sg := Bsign a); [| | exact W1 | exact W2' |].
    + intros c. apply round_round_sqrt_FLT; try lia; auto with typeclass_instances; try apply format16.
      all: try (red; lia).
    + change (SpecFloat.fexp 11 16) with F16 in R1. rewrite <- R1, Rlt_bool_true by apply f16_bound.
      repeat split; auto. apply R3. destruct (Bsqrt m a); try discriminate; reflexivity.
    + apply W3. destruct (Bsqrt m w); try discriminate; reflexivity.
Qed.

(** ** Lanes *)
Lemma zip_with_nth : forall A B D (f : A -> B -> D) x y k a b d,
  (k < length x)%nat -> (k < length y)%nat ->
  nth k (zip_with f x y) d = f (nth k x a) (nth k y b).
Proof.
  intros A B D f x. induction x as [|u x IH]; intros y k a b d Hx Hy; [cbn in Hx; lia|].
  destruct y as [|v y]; [cbn in Hy; lia|]. destruct k as [|k]; [reflexivity|].
  cbn in Hx, Hy. change (nth k (zip_with f x y) d = f (nth k x a) (nth k y b)). apply IH; lia.
Qed.

Lemma zip_with_lanewise : forall T (f : T -> T -> T) w,
  Spec.Batch.lanewise w f (zip_with f).
Proof.
  intros T f w x y Hx Hy. split.
  - rewrite zip_with_length. lia.
  - intros k d Hk. apply zip_with_nth; lia.
Qed.

Lemma half8_op_zip : forall m (f : f32 -> f32 -> f32) (g : f16 -> f16 -> f16),
  (forall a b, convert 11 16 m (f (convert 24 128 mode_NE a) (convert 24 128 mode_NE b)) = g a b) ->
  forall x y, half8_op m (zip_with f) x y = zip_with g x y.
Proof.
  intros m f g H. unfold half8_op, cvtph_ps, cvtps_ph.
  induction x as [|a x IH]; intros [|b y]; try reflexivity.
  specialize (IH y). unfold zip_with in *. cbn [map combine fst snd] in *. rewrite H. exact (f_equal (cons (g a b)) IH).
Qed.

Lemma combine_app2 : forall A B (x x' : list A) (y y' : list B), length x = length y ->
  combine (x ++ x') (y ++ y') = combine x y ++ combine x' y'.
Proof. intros A B x. induction x; intros x' [|b y] y' H; cbn in *; try discriminate; auto. f_equal. apply IHx. lia. Qed.

Lemma half16_op_zip : forall m (f : f32 -> f32 -> f32) (g : f16 -> f16 -> f16),
  (forall a b, convert 11 16 m (f (convert 24 128 mode_NE a) (convert 24 128 mode_NE b)) = g a b) ->
  forall x y, length x = 16%nat -> length y = 16%nat ->
  half16_op m (zip_with f) x y =
    zip_with g (firstn 8 x) (firstn 8 y) ++ zip_with g (skipn 8 x) (skipn 8 y) /\
  half16_op m (zip_with f) x y = zip_with g x y.
Proof.
  intros m f g H x y Hx Hy.
  assert (E : half16_op m (zip_with f) x y =
    zip_with g (firstn 8 x) (firstn 8 y) ++ zip_with g (skipn 8 x) (skipn 8 y)).
  { unfold half16_op. cbv zeta. unfold insert128.
    fold (half8_op m (zip_with f) (extract128 x 0) (extract128 y 0)).
    fold (half8_op m (zip_with f) (extract128 x 1) (extract128 y 1)).
    rewrite !(half8_op_zip m f g H). unfold extract128.
    change (8 * 0)%nat with 0%nat. change (8 * 1)%nat with 8%nat. rewrite !skipn_O.
    f_equal.
    - apply firstn_all2. rewrite zip_with_length, !firstn_length. lia.
    - rewrite (firstn_all2 (n := 8) (skipn 8 x)) by (rewrite skipn_length; lia).
      rewrite (firstn_all2 (n := 8) (skipn 8 y)) by (rewrite skipn_length; lia).
      apply firstn_all2. rewrite zip_with_length, !skipn_length. lia. }
  split; [exact E|]. rewrite E.
  rewrite <- (firstn_skipn 8 x) at 3. rewrite <- (firstn_skipn 8 y) at 3.
  unfold zip_with. rewrite combine_app2 by (rewrite !firstn_length; lia). now rewrite map_app.
Qed.

(** ** The operations in terms of real numbers *)
Lemma overflow_inf : forall p e (x : binary_float p e) s,
  B2SF x = binary_overflow p e mode_NE s -> x = B754_infinity s.
Proof. intros p e [s'|s'| |s' k x H] s; cbn; congruence. Qed.

Lemma sign_pos : forall p e (x : binary_float p e),
  (Bsign x = true -> B2R x <= 0) /\ (Bsign x = false -> 0 <= B2R x).
Proof.
  intros p e [s|s| |s k ex Hk]; cbn [Bsign B2R]; split; intros; subst; try lra.
  - left. now apply F2R_lt_0.
  - left. now apply F2R_gt_0.
Qed.

Lemma big_nonzero : forall p e (P : Prec_gt_0 p) (E : Prec_lt_emax p e) v,
  bpow radix2 e <= Rabs (round radix2 (SpecFloat.fexp p e) ZnearestE v) -> v <> 0.
Proof.
  intros p e P E v H ->. rewrite round_0, Rabs_R0 in H by auto with typeclass_instances.
  pose proof (bpow_gt_0 radix2 e). lra.
Qed.

Lemma plus_rounds : forall p e (P : Prec_gt_0 p) (E : Prec_lt_emax p e),
  rounds p e (SpecFloat.emin p e) Rplus (Bplus mode_NE).
Proof.
  intros p e P E a b Fa Fb v. pose proof (Bplus_correct p e P E mode_NE a b Fa Fb) as H.
  fold v in H. unfold nearest. change (FLT_exp (SpecFloat.emin p e) p) with (SpecFloat.fexp p e).
  cbn [round_mode] in H. split; intros Hb.
  - rewrite Rlt_bool_true in H by auto. destruct H as (H1 & H2 & _). auto.
  - rewrite Rlt_bool_false in H by auto. destruct H as (H1 & H2). apply overflow_inf in H1. rewrite H1.
    f_equal. pose proof (big_nonzero p e P E v Hb) as Hnz.
    pose proof (sign_pos p e a) as [Sa Ta]. pose proof (sign_pos p e b) as [Sb Tb].
    subst v. destruct (Bsign a).
    + symmetry. apply Rlt_bool_true. specialize (Sa eq_refl). specialize (Sb (eq_sym H2)). lra.
    + symmetry. apply Rlt_bool_false. specialize (Ta eq_refl). specialize (Tb (eq_sym H2)). lra.
Qed.

Lemma minus_rounds : forall p e (P : Prec_gt_0 p) (E : Prec_lt_emax p e),
  rounds p e (SpecFloat.emin p e) Rminus (Bminus mode_NE).
Proof.
  intros p e P E a b Fa Fb v. rewrite minus_is_plus.
  pose proof (plus_rounds p e P E a (Bopp b) Fa) as H. rewrite is_finite_Bopp, B2R_Bopp in H.
  exact (H Fb).
Qed.

Lemma mult_rounds : forall p e (P : Prec_gt_0 p) (E : Prec_lt_emax p e),
  rounds p e (SpecFloat.emin p e) Rmult (Bmult mode_NE).
Proof.
  intros p e P E a b Fa Fb v. pose proof (Bmult_correct p e P E mode_NE a b) as H.
  fold v in H. unfold nearest. change (FLT_exp (SpecFloat.emin p e) p) with (SpecFloat.fexp p e).
  cbn [round_mode] in H. split; intros Hb.
  - rewrite Rlt_bool_true in H by auto. destruct H as (H1 & H2 & _). rewrite Fa, Fb in H2. auto.
  - rewrite Rlt_bool_false in H by auto. apply overflow_inf in H. rewrite H.
    f_equal. pose proof (big_nonzero p e P E v Hb) as Hnz.
    pose proof (sign_pos p e a) as [Sa Ta]. pose proof (sign_pos p e b) as [Sb Tb].
    assert (Ha : B2R a <> 0) by (intros Z; apply Hnz; subst v; rewrite Z; ring).
    assert (Hb' : B2R b <> 0) by (intros Z; apply Hnz; subst v; rewrite Z; ring).
    subst v. destruct (Bsign a), (Bsign b); cbn [xorb]; symmetry;
      try specialize (Sa eq_refl); try specialize (Ta eq_refl);
      try specialize (Sb eq_refl); try specialize (Tb eq_refl).
    + apply Rlt_bool_false. replace (B2R a * B2R b) with ((- B2R a) * (- B2R b)) by ring.
      apply Rmult_le_pos; lra.
    + apply Rlt_bool_true. assert (0 < (- B2R a) * B2R b) by (apply Rmult_lt_0_compat; lra). lra.
    + apply Rlt_bool_true. assert (0 < B2R a * (- B2R b)) by (apply Rmult_lt_0_compat; lra). lra.
    + apply Rlt_bool_false. apply Rmult_le_pos; lra.
Qed.

(** ** abs of complex32 *)
Lemma square_cases : forall x : f16, is_finite x = true ->
  (exists s, Bmult mode_NE x x = B754_infinity s /\ s = false) \/
  (is_finite (Bmult mode_NE x x) = true /\ Bsign (Bmult mode_NE x x) = false).
Proof.
  intros x Fx. pose proof (Bmult_correct 11 16 _ _ mode_NE x x) as H. rewrite Fx in H.
  destruct (Rlt_bool _ _).
  - right. destruct H as (_ & H2 & H3). split; auto. rewrite H3, Bool.xorb_nilpotent; auto.
    destruct (Bmult mode_NE x x); try discriminate; reflexivity.
  - left. apply overflow_inf in H. rewrite Bool.xorb_nilpotent in H. eauto.
Qed.

Lemma abs_is_half : forall m re im,
  complex32_abs m re im = Bsqrt m (Bplus m (Bmult m re re) (Bmult m im im)).
Proof. intros. unfold complex32_abs. cbv zeta. apply half_sqrt_lane. Qed.

Lemma square_big : forall x : f16, is_finite x = true -> 256 <= Rabs (B2R x) ->
  Bmult mode_NE x x = B754_infinity false.
Proof.
  intros x Fx Hx. pose proof (mult_rounds 11 16 _ _ x x Fx Fx) as [_ H]. cbv zeta in H.
  assert (Hsq : 65536 <= B2R x * B2R x).
  { rewrite <- (Rabs_pos_eq (B2R x * B2R x)) by (apply Rle_0_sqr). rewrite Rabs_mult.
    replace 65536 with (256 * 256) by lra. apply Rmult_le_compat; lra. }
  rewrite H; [rewrite Rlt_bool_false by lra; reflexivity|].
  unfold nearest. apply abs_round_ge_generic; auto with typeclass_instances.
  - apply generic_format_bpow. unfold FLT_exp, SpecFloat.emin. lia.
  - rewrite bp16, Rabs_pos_eq; lra.
Qed.

Lemma abs_big : forall re im : f16, is_finite re = true -> is_finite im = true ->
  256 <= Rabs (B2R re) \/ 256 <= Rabs (B2R im) ->
  complex32_abs mode_NE re im = B754_infinity false.
Proof.
  intros re im Fr Fi [H|H]; rewrite abs_is_half.
  - rewrite (square_big re Fr H). destruct (square_cases im Fi) as [(s & -> & ->)|[F S]]; [reflexivity|].
    destruct (Bmult mode_NE im im); try discriminate; reflexivity.
  - rewrite (square_big im Fi H). destruct (square_cases re Fr) as [(s & -> & ->)|[F S]]; [reflexivity|].
    destruct (Bmult mode_NE re re); try discriminate; reflexivity.
Qed.

Lemma square_small : forall x : f16, is_finite x = true -> Rabs (B2R x) <= bpow radix2 (-13) ->
  is_finite (Bmult mode_NE x x) = true /\ B2R (Bmult mode_NE x x) = 0.
Proof.
  intros x Fx Hx. pose proof (mult_rounds 11 16 _ _ x x Fx Fx) as [H _]. cbv zeta in H.
  assert (Hsq : B2R x * B2R x <= bpow radix2 (-26)).
  { rewrite <- (Rabs_pos_eq (B2R x * B2R x)) by (apply Rle_0_sqr). rewrite Rabs_mult.
    replace (-26)%Z with ((-13) + (-13))%Z by lia. rewrite bpow_plus.
    apply Rmult_le_compat; auto using Rabs_pos. }
  assert (Z : nearest 11 (SpecFloat.emin 11 16) (B2R x * B2R x) = 0).
  { unfold nearest. destruct (Req_dec (B2R x * B2R x) 0) as [E|E].
    - rewrite E. apply round_0; auto with typeclass_instances.
    - assert (0 < B2R x * B2R x) by (pose proof (Rle_0_sqr (B2R x)); unfold Rsqr in *; lra).
      apply round_N_small with (ex := mag radix2 (B2R x * B2R x)).
      + destruct (mag radix2 (B2R x * B2R x)) as (ex & Hex). cbn. apply Hex. auto.
      + unfold FLT_exp, SpecFloat.emin.
        assert (mag radix2 (B2R x * B2R x) <= -25)%Z.
        { apply mag_le_bpow; auto. rewrite Rabs_pos_eq by lra. apply Rle_lt_trans with (1 := Hsq).
          apply bpow_lt. lia. }
        lia. }
  rewrite Z in H. apply H. rewrite Rabs_R0. apply bpow_gt_0.
Qed.

Lemma abs_small : forall re im : f16, is_finite re = true -> is_finite im = true ->
  Rabs (B2R re) <= bpow radix2 (-13) -> Rabs (B2R im) <= bpow radix2 (-13) ->
  is_finite (complex32_abs mode_NE re im) = true /\ B2R (complex32_abs mode_NE re im) = 0.
Proof.
  intros re im Fr Fi Hr Hi. rewrite abs_is_half.
  destruct (square_small re Fr Hr) as [F1 V1]. destruct (square_small im Fi Hi) as [F2 V2].
  pose proof (plus_rounds 11 16 _ _ _ _ F1 F2) as [H _]. cbv zeta in H. rewrite V1, V2, Rplus_0_l in H.
  unfold nearest in H. rewrite round_0, Rabs_R0 in H by auto with typeclass_instances.
  destruct (H (bpow_gt_0 _ _)) as [F V].
  pose proof (Bsqrt_correct 11 16 _ _ mode_NE (Bplus mode_NE (Bmult mode_NE re re) (Bmult mode_NE im im))) as (S1 & S2 & _).
  rewrite V, sqrt_0, round_0 in S1 by auto with typeclass_instances. split; auto.
  rewrite S2. destruct (Bplus mode_NE (Bmult mode_NE re re) (Bmult mode_NE im im)) as [s|s| |s k e Hk]; auto; try discriminate.
  destruct s; auto. exfalso. cbn [B2R] in V. revert V. apply Rlt_not_eq. now apply F2R_lt_0.
Qed.

Notation half_u := (1 / 2048).
Notation half_eta := (1 / 33554432).

Lemma near16 : forall v, exists e h, Rabs e <= half_u /\ Rabs h <= half_eta /\
  nearest 11 (SpecFloat.emin 11 16) v = v * (1 + e) + h.
Proof.
  intros v. unfold nearest.
  destruct (error_N_FLT radix2 (SpecFloat.emin 11 16) 11 prec_gt_0_11 (fun n => negb (Z.even n)) v)
    as (e & h & He & Hh & _ & Hv).
  exists e, h. split; [|split]; auto.
  - eapply Rle_trans; [exact He|]. cbn. lra.
  - eapply Rle_trans; [exact Hh|]. cbn. lra.
Qed.

Lemma Rabs_le2 : forall x a, Rabs x <= a -> - a <= x <= a.
Proof. intros x a H. apply Rabs_le_inv. exact H. Qed.

Lemma prod_bound : forall x e a, 0 <= x -> Rabs e <= a -> - (a * x) <= x * e <= a * x.
Proof.
  intros x e a Hx He. apply Rabs_le2 in He. destruct He.
  split.
  - assert (0 <= x * (e + a)) by (apply Rmult_le_pos; lra). lra.
  - assert (0 <= x * (a - e)) by (apply Rmult_le_pos; lra). lra.
Qed.

Lemma abs_mid : forall re im : f16, is_finite re = true -> is_finite im = true ->
  let z := sqrt (B2R re * B2R re + B2R im * B2R im) in
  1 / 64 <= z <= 254 ->
  is_finite (complex32_abs mode_NE re im) = true /\
  Rabs (B2R (complex32_abs mode_NE re im) - z) <= 5 / 4096 * z.
Proof.
  intros re im Fr Fi z [Hz1 Hz2]. rewrite abs_is_half.
  set (X := B2R re * B2R re) in *. set (Y := B2R im * B2R im) in *.
  assert (HX : 0 <= X) by (apply Rle_0_sqr). assert (HY : 0 <= Y) by (apply Rle_0_sqr).
  assert (Hzz : z * z = X + Y) by (apply sqrt_sqrt; lra).
  assert (HT1 : 1 / 4096 <= X + Y).
  { rewrite <- Hzz. replace (1 / 4096) with (1 / 64 * (1 / 64)) by lra. apply Rmult_le_compat; lra. }
  assert (HT2 : X + Y <= 64516).
  { rewrite <- Hzz. replace 64516 with (254 * 254) by lra. apply Rmult_le_compat; lra. }
  destruct (near16 X) as (e1 & h1 & He1 & Hh1 & N1). destruct (near16 Y) as (e2 & h2 & He2 & Hh2 & N2).
  pose proof (prod_bound X e1 _ HX He1) as P1. pose proof (prod_bound Y e2 _ HY He2) as P2.
  apply Rabs_le2 in Hh1. apply Rabs_le2 in Hh2.
  assert (PX : 0 <= nearest 11 (SpecFloat.emin 11 16) X).
  { unfold nearest. apply round_ge_generic; auto with typeclass_instances. apply generic_format_0. }
  assert (PY : 0 <= nearest 11 (SpecFloat.emin 11 16) Y).
  { unfold nearest. apply round_ge_generic; auto with typeclass_instances. apply generic_format_0. }
  remember (nearest 11 (SpecFloat.emin 11 16) X) as a. remember (nearest 11 (SpecFloat.emin 11 16) Y) as b.
  assert (Hab : Rabs ((a + b) - (X + Y)) <= 3 / 4096 * (X + Y)).
  { apply Rabs_le. split; lra. }
  apply Rabs_le2 in Hab.
  pose proof (mult_rounds 11 16 _ _ re re Fr Fr) as [M1 _]. cbv zeta in M1. fold X in M1. rewrite <- Heqa in M1.
  pose proof (mult_rounds 11 16 _ _ im im Fi Fi) as [M2 _]. cbv zeta in M2. fold Y in M2. rewrite <- Heqb in M2.
  rewrite bp16 in M1, M2.
  destruct M1 as [F1 V1]; [rewrite Rabs_pos_eq; lra|].
  destruct M2 as [F2 V2]; [rewrite Rabs_pos_eq; lra|].
  destruct (near16 (a + b)) as (e3 & h3 & He3 & Hh3 & N3).
  assert (Hab0 : 0 <= a + b) by lra.
  pose proof (prod_bound (a + b) e3 _ Hab0 He3) as P3. apply Rabs_le2 in Hh3.
  assert (PS : 0 <= nearest 11 (SpecFloat.emin 11 16) (a + b)).
  { unfold nearest. apply round_ge_generic; auto with typeclass_instances. apply generic_format_0. }
  pose proof (plus_rounds 11 16 _ _ _ _ F1 F2) as [A1 _]. cbv zeta in A1. rewrite V1, V2, bp16 in A1.
  remember (nearest 11 (SpecFloat.emin 11 16) (a + b)) as S.
  destruct A1 as [F3 V3]; [rewrite Rabs_pos_eq; lra|].
  remember (Bplus mode_NE (Bmult mode_NE re re) (Bmult mode_NE im im)) as s.
  assert (HS : - (277 / 204800 * (X + Y)) <= S - (X + Y) <= 277 / 204800 * (X + Y)) by lra.
  pose proof (Bsqrt_correct 11 16 _ _ mode_NE s) as (S1 & S2 & _). rewrite V3 in S1.
  assert (Hq : (1 - 14 / 20480) * z <= sqrt S <= (1 + 14 / 20480) * z).
  { split.
    - apply Rsqr_incr_0_var; [|apply sqrt_pos]. unfold Rsqr. rewrite sqrt_sqrt by lra.
      replace ((1 - 14 / 20480) * z * ((1 - 14 / 20480) * z)) with ((1 - 14 / 20480) * (1 - 14 / 20480) * (z * z)) by ring.
      rewrite Hzz. lra.
    - apply Rsqr_incr_0_var; [|apply Rmult_le_pos; lra]. unfold Rsqr. rewrite sqrt_sqrt by lra.
      replace ((1 + 14 / 20480) * z * ((1 + 14 / 20480) * z)) with ((1 + 14 / 20480) * (1 + 14 / 20480) * (z * z)) by ring.
      rewrite Hzz. lra. }
  destruct (near16 (sqrt S)) as (e4 & h4 & He4 & Hh4 & N4).
  pose proof (prod_bound (sqrt S) e4 _ (sqrt_pos S) He4) as P4. apply Rabs_le2 in Hh4.
  change (SpecFloat.fexp 11 16) with (FLT_exp (SpecFloat.emin 11 16) 11) in S1. cbn [round_mode] in S1.
  fold (nearest 11 (SpecFloat.emin 11 16) (sqrt S)) in S1. split.
  - rewrite S2. destruct s as [sg|sg| |sg k e Hk]; auto; try discriminate.
    destruct sg; auto. exfalso. cbn [B2R] in V3.
    assert (F2R (Float radix2 (SpecFloat.cond_Zopp true (Zpos k)) e) < 0) by now apply F2R_lt_0. lra.
  - rewrite S1, N4. apply Rabs_le. split; lra.
Qed.

Lemma lanewise_zip : forall T (f : T -> T -> T) w op,
  (forall x y, length x = w -> length y = w -> op x y = zip_with f x y) -> lanewise w f op.
Proof.
  intros T f w op H x y Hx Hy. rewrite (H x y Hx Hy). exact (zip_with_lanewise T f w x y Hx Hy).
Qed.
