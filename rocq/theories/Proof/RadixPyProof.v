(** radix4.py: what the four transforms compute. *)
From Coq Require Import List Arith Bool Reals Lra Lia.
From Verif Require Import Base.Outcome Base.OutcomeFacts Base.Sums Base.Cplx Spec.Dft Spec.DigitRev Spec.Twisted.
From Verif Require Import Proof.DftTheory Proof.DigitRevTheory Proof.TwistedTheory Model.RadixPy.
From Verif Require Import Model.Fft2 Model.FftRadix Model.Stockham Proof.Fft2Proof Proof.BitrevProof Proof.RadixProof Proof.StockhamProof.
From Verif Require Import Proof.Radix4Proof Proof.RadixPyReversal.
Import ListNotations.
Open Scope outcome_scope.
Local Arguments Nat.div : simpl never.
Local Arguments Nat.modulo : simpl never.
Local Arguments Nat.pow : simpl never.

(** ** Stage values for any radix; [e] is the direction of the small kernel, [d] that of the twiddles *)
Definition dit_v (r : nat) (e d : direction) (kr : nat) (y : nat -> C) (a : nat) : C :=
  let k := a mod kr in let q := (a / kr) mod r in let h := a / (r * kr) in
  Csum r (fun t => (W e r (q * t) * (y (k + h * (r * kr) + t * kr)%nat * W d (r * kr) (t * k)))%C).

Definition dif_v (r : nat) (e d : direction) (kr : nat) (y : nat -> C) (a : nat) : C :=
  let k := a mod kr in let q := (a / kr) mod r in let h := a / (r * kr) in
  (W d (r * kr) (q * k) * Csum r (fun c => W e r (q * c) * y (k + h * (r * kr) + c * kr)%nat))%C.

Lemma ixr_inj : forall r kr k h t k' h' t', k < kr -> t < r -> k' < kr -> t' < r ->
  k + h * (r * kr) + t * kr = k' + h' * (r * kr) + t' * kr -> h = h' /\ k = k'.
Proof.
  intros. destruct (idx_split r kr k h t) as [A1 [A2 A3]]; auto.
  destruct (idx_split r kr k' h' t') as [B1 [B2 B3]]; auto. split; congruence.
Qed.

Lemma ixr_surj : forall r kr cnt a, 0 < r -> 0 < kr -> a < cnt * (r * kr) ->
  exists h k t, h < cnt /\ k < kr /\ t < r /\ a = k + h * (r * kr) + t * kr.
Proof.
  intros r kr cnt a Hr Hk Ha. destruct (dif_ix_surj r cnt kr a) as [j [k [t [H1 [H2 [H3 H4]]]]]]; try lia.
  exists j, k, t. repeat split; auto. lia.
Qed.

Lemma ixr_lt : forall r kr cnt k h t, k < kr -> h < cnt -> t < r -> k + h * (r * kr) + t * kr < cnt * (r * kr).
Proof. intros. pose proof (idx_lt2 r cnt kr k h t H H0 H1). lia. Qed.

(** Specification of one butterfly: it owns the r cells of (h, k) and stores F there. *)
Definition bf_ok (r kr : nat) (x : list C) (F : nat -> C) (h k : nat) (bf : list C -> outcome (list C)) : Prop :=
  forall u, length u = length x ->
    (forall t, t < r -> nth (k + h * (r * kr) + t * kr) u C0 = nth (k + h * (r * kr) + t * kr) x C0) ->
    exists u', bf u = Ok u' /\ length u' = length x /\
      (forall t, t < r -> nth (k + h * (r * kr) + t * kr) u' C0 = F (k + h * (r * kr) + t * kr)) /\
      (forall a, (forall t, t < r -> a <> k + h * (r * kr) + t * kr) -> nth a u' C0 = nth a u C0).

Lemma stage_generic : forall r kr cnt (bf : nat -> nat -> list C -> outcome (list C)) (F : nat -> C) (x : list C),
  0 < r -> 0 < kr -> length x = cnt * (r * kr) ->
  (forall h k, h < cnt -> k < kr -> bf_ok r kr x F h k (bf (h * (r * kr)) k)) ->
  exists x', for_range 0 cnt (fun _ (s : nat * list C) =>
      x <- for_range 0 kr (fun k x => bf (fst s) k x) (snd s) ;; Ok (fst s + r * kr, x)) (0, x)
    = Ok (cnt * (r * kr), x') /\ length x' = length x /\ forall a, a < length x -> nth a x' C0 = F a.
Proof.
  intros r kr cnt bf F x Hr Hkr Lx Hb.
  rewrite (acc_loop (list C) cnt (r * kr) (fun base x => for_range 0 kr (fun k x => bf base k x) x)).
  destruct (nested_touch C C0 r cnt kr (length x) x (fun h k t => k + h * (r * kr) + t * kr)
    (fun h k u => bf (0 + h * (r * kr)) k u) F) as [x' [E [L V]]]; auto.
  - intros. eapply ixr_inj; [| | | | eauto]; auto.
  - intros a Ha. apply ixr_surj; auto. lia.
  - intros h k u Hh Hk Lu Hu. apply Hb; auto.
  - exists x'. split; auto. rewrite E. cbn [bind]. do 2 f_equal.
Qed.

(** ** Python's reads and writes *)
Lemma tw_read : forall d r p s c k, 1 < r -> s < p -> k < r ^ s -> c < r ->
  py_get (py_twiddles d ((r - 1) * (r ^ p / r - 1) + 1) (r ^ p)) (c * k * r ^ (p - 1 - s)) = Ok (W d (r * r ^ s) (c * k)).
Proof.
  intros d r p s c k Hr Hs Hk Hc.
  assert (Hws : 0 < r ^ (p - 1 - s)) by (apply pow_pos; lia).
  assert (EP : r ^ p = r * r ^ s * r ^ (p - 1 - s)).
  { rewrite <- Nat.pow_succ_r', <- Nat.pow_add_r. f_equal. lia. }
  assert (EQ : r ^ p / r = r ^ s * r ^ (p - 1 - s)).
  { rewrite EP. symmetry. apply Nat.div_unique with 0; lia. }
  assert (B : c * k * r ^ (p - 1 - s) <= (r - 1) * (r ^ p / r - 1)).
  { rewrite EQ. assert ((k + 1) * r ^ (p - 1 - s) <= r ^ s * r ^ (p - 1 - s)) by (apply Nat.mul_le_mono_r; lia).
    assert (k * r ^ (p - 1 - s) <= r ^ s * r ^ (p - 1 - s) - 1) by nia.
    rewrite <- Nat.mul_assoc. apply Nat.mul_le_mono; lia. }
  unfold py_twiddles.
  rewrite (py_get_ok _ _ _ (W d (r ^ p) 0)) by (rewrite map_length, seq_length; lia). f_equal.
  change (fun k0 => Cexp (dsign d * (2 * PI) * INR k0 / INR (r ^ p))) with (W d (r ^ p)).
  rewrite map_nth, seq_nth by lia. rewrite Nat.add_0_l. rewrite EP. apply W_scale_r. auto.
Qed.

Lemma four_sets : forall (u : list C) a0 a1 a2 a3 v0 v1 v2 v3,
  a0 < a1 -> a1 < a2 -> a2 < a3 -> a3 < length u ->
  exists u', (x <- py_set u a0 v0 ;; x <- py_set x a1 v1 ;; x <- py_set x a2 v2 ;; py_set x a3 v3) = Ok u' /\
    length u' = length u /\
    nth a0 u' C0 = v0 /\ nth a1 u' C0 = v1 /\ nth a2 u' C0 = v2 /\ nth a3 u' C0 = v3 /\
    (forall c, c <> a0 -> c <> a1 -> c <> a2 -> c <> a3 -> nth c u' C0 = nth c u C0).
Proof.
  intros. rewrite py_set_ok by lia. cbn [bind]. do 3 (rewrite py_set_ok by (upd_len; lia); cbn [bind]).
  eexists. split; [reflexivity|]. upd_len. split; auto. rewrite !nth_upd. upd_len.
  split; [eqb_cases; auto|]. split; [eqb_cases; auto|]. split; [eqb_cases; auto|]. split; [eqb_cases; auto|].
  intros c H3 H4 H5 H6. rewrite !nth_upd. upd_len. eqb_cases; auto.
Qed.

Lemma two_sets : forall (u : list C) a0 a1 v0 v1, a0 < a1 -> a1 < length u ->
  exists u', (x <- py_set u a0 v0 ;; py_set x a1 v1) = Ok u' /\ length u' = length u /\
    nth a0 u' C0 = v0 /\ nth a1 u' C0 = v1 /\ (forall c, c <> a0 -> c <> a1 -> nth c u' C0 = nth c u C0).
Proof.
  intros. rewrite py_set_ok by lia. cbn [bind]. rewrite py_set_ok by (upd_len; lia).
  eexists. split; [reflexivity|]. upd_len. split; auto. rewrite !nth_upd. upd_len.
  split; [eqb_cases; auto|]. split; [eqb_cases; auto|].
  intros c H3 H4. rewrite !nth_upd. upd_len. eqb_cases; auto.
Qed.

Lemma sign_i_B : sign_i Backward = Ci.
Proof. reflexivity. Qed.

(** ** The butterflies *)
Lemma py_dit4_bf_ok : forall d kr cnt h k tw tss (x : list C), 0 < kr -> k < kr -> h < cnt ->
  length x = cnt * (4 * kr) ->
  (forall c, c < 4 -> py_get tw (c * k * tss) = Ok (W d (4 * kr) (c * k))) ->
  bf_ok 4 kr x (dit_v 4 Forward d kr (fun i => nth i x C0)) h k (py_dit4_bf tw tss kr (h * (4 * kr)) k).
Proof.
  intros d kr cnt h k tw tss x Hkr Hk Hh Lx Ht u Lu Hu. unfold py_dit4_bf.
  assert (Hlt : k + h * (4 * kr) + 3 * kr < length u) by (rewrite Lu, Lx; apply ixr_lt; lia).
  set (A := h * (4 * kr) + k).
  rewrite (py_get_ok _ u (A + kr) C0), (py_get_ok _ u (A + 2 * kr) C0), (py_get_ok _ u (A + 3 * kr) C0) by (unfold A; lia).
  cbn [bind].
  match goal with |- exists u', (bind ?Q _) = _ /\ _ =>
    assert (EQ : Q = Ok ((nth (A + kr) u C0 * W d (4 * kr) (1 * k))%C, (nth (A + 2 * kr) u C0 * W d (4 * kr) (2 * k))%C,
      (nth (A + 3 * kr) u C0 * W d (4 * kr) (3 * k))%C)) end.
  { assert (M1 : forall c : C, (c * C1)%C = c) by (intros; ring).
    destruct (Nat.eqb_spec k 0) as [->|Ne].
    - rewrite !Nat.mul_0_r, W_0, !M1. auto.
    - pose proof (Ht 1 ltac:(lia)) as T1. pose proof (Ht 2 ltac:(lia)) as T2. pose proof (Ht 3 ltac:(lia)) as T3.
      rewrite Nat.mul_1_l in T1 |- *. rewrite T1, T2, T3. auto. }
  rewrite EQ. clear EQ. cbn [bind]. rewrite (py_get_ok _ u A C0) by (unfold A; lia). cbn [bind].
  edestruct (four_sets u A (A + kr) (A + 2 * kr) (A + 3 * kr)) as [u' [E [L [V0 [V1 [V2 [V3 Fr]]]]]]]; try (unfold A; lia).
  exists u'. split; [exact E|]. split; [lia|]. split.
  - intros t Htt. unfold dit_v. destruct (idx_split 4 kr k h t) as [A1 [A2 A3]]; auto. rewrite A1, A2, A3.
    change (W Forward 4) with (W (flip Backward) 4).
    rewrite (kern4 Backward t (fun t => (nth (k + h * (4 * kr) + t * kr) x C0 * W d (4 * kr) (t * k))%C)) by auto.
    rewrite <- !Hu by lia. rewrite (Nat.mul_0_l k), W_0, sign_i_B.
    replace (k + h * (4 * kr) + 0 * kr) with A by (unfold A; lia).
    replace (k + h * (4 * kr) + 1 * kr) with (A + kr) by (unfold A; lia).
    replace (k + h * (4 * kr) + 2 * kr) with (A + 2 * kr) by (unfold A; lia).
    replace (k + h * (4 * kr) + 3 * kr) with (A + 3 * kr) by (unfold A; lia).
    destruct t as [|[|[|[|t]]]]; [| | | |lia].
    + replace (k + h * (4 * kr) + 0 * kr) with A by (unfold A; lia). rewrite V0. ring.
    + replace (k + h * (4 * kr) + 1 * kr) with (A + kr) by (unfold A; lia). rewrite V1. ring.
    + replace (k + h * (4 * kr) + 2 * kr) with (A + 2 * kr) by (unfold A; lia). rewrite V2. ring.
    + replace (k + h * (4 * kr) + 3 * kr) with (A + 3 * kr) by (unfold A; lia). rewrite V3. ring.
  - intros a Ha.
    pose proof (Ha 0 ltac:(lia)). pose proof (Ha 1 ltac:(lia)).
    pose proof (Ha 2 ltac:(lia)). pose proof (Ha 3 ltac:(lia)). apply Fr; unfold A; lia.
Qed.

Lemma py_dif4_bf_ok : forall d kr cnt h k tw tss (x : list C), 0 < kr -> k < kr -> h < cnt ->
  length x = cnt * (4 * kr) ->
  (forall c, c < 4 -> py_get tw (c * k * tss) = Ok (W d (4 * kr) (c * k))) ->
  bf_ok 4 kr x (dif_v 4 Forward d kr (fun i => nth i x C0)) h k (py_dif4_bf tw tss kr (h * (4 * kr)) k).
Proof.
  intros d kr cnt h k tw tss x Hkr Hk Hh Lx Ht u Lu Hu. unfold py_dif4_bf.
  assert (Hlt : k + h * (4 * kr) + 3 * kr < length u) by (rewrite Lu, Lx; apply ixr_lt; lia).
  set (A := h * (4 * kr) + k).
  rewrite (py_get_ok _ u A C0), (py_get_ok _ u (A + kr) C0), (py_get_ok _ u (A + 2 * kr) C0), (py_get_ok _ u (A + 3 * kr) C0)
    by (unfold A; lia).
  cbn [bind].
  set (xa := nth A u C0). set (xb := nth (A + kr) u C0). set (xc := nth (A + 2 * kr) u C0). set (xd := nth (A + 3 * kr) u C0).
  match goal with |- exists u', ?Q = _ /\ _ =>
    assert (EQ : Q = (x <- py_set u A (xa + xc + (xb + xd))%C ;;
      x <- py_set x (A + kr) ((xa - xc - Ci * (xb - xd)) * W d (4 * kr) (1 * k))%C ;;
      x <- py_set x (A + 2 * kr) ((xa + xc - (xb + xd)) * W d (4 * kr) (2 * k))%C ;;
      py_set x (A + 3 * kr) ((xa - xc + Ci * (xb - xd)) * W d (4 * kr) (3 * k))%C)) end.
  { assert (M1 : forall c : C, (c * C1)%C = c) by (intros; ring).
    rewrite py_set_ok by (unfold A; lia). cbn [bind].
    destruct (Nat.eqb_spec k 0) as [E0|Ne].
    - rewrite E0, !Nat.mul_0_r, W_0, !M1. auto.
    - pose proof (Ht 1 ltac:(lia)) as T1. pose proof (Ht 2 ltac:(lia)) as T2. pose proof (Ht 3 ltac:(lia)) as T3.
      rewrite Nat.mul_1_l in T1 |- *. rewrite T1, T2, T3. auto. }
  rewrite EQ. clear EQ.
  edestruct (four_sets u A (A + kr) (A + 2 * kr) (A + 3 * kr)) as [u' [E [L [V0 [V1 [V2 [V3 Fr]]]]]]]; try (unfold A; lia).
  exists u'. split; [exact E|]. split; [lia|]. split.
  - intros t Htt. unfold dif_v. destruct (idx_split 4 kr k h t) as [A1 [A2 A3]]; auto. rewrite A1, A2, A3.
    change (W Forward 4) with (W (flip Backward) 4).
    rewrite (kern4 Backward t (fun t => nth (k + h * (4 * kr) + t * kr) x C0)) by auto.
    rewrite <- !Hu by lia. rewrite sign_i_B.
    replace (k + h * (4 * kr) + 0 * kr) with A by (unfold A; lia).
    replace (k + h * (4 * kr) + 1 * kr) with (A + kr) by (unfold A; lia).
    replace (k + h * (4 * kr) + 2 * kr) with (A + 2 * kr) by (unfold A; lia).
    replace (k + h * (4 * kr) + 3 * kr) with (A + 3 * kr) by (unfold A; lia).
    fold xa xb xc xd.
    destruct t as [|[|[|[|t]]]]; [| | | |lia].
    + replace (k + h * (4 * kr) + 0 * kr) with A by (unfold A; lia). rewrite V0, Nat.mul_0_l, W_0. ring.
    + replace (k + h * (4 * kr) + 1 * kr) with (A + kr) by (unfold A; lia). rewrite V1. ring.
    + replace (k + h * (4 * kr) + 2 * kr) with (A + 2 * kr) by (unfold A; lia). rewrite V2. ring.
    + replace (k + h * (4 * kr) + 3 * kr) with (A + 3 * kr) by (unfold A; lia). rewrite V3. ring.
  - intros a Ha.
    pose proof (Ha 0 ltac:(lia)). pose proof (Ha 1 ltac:(lia)).
    pose proof (Ha 2 ltac:(lia)). pose proof (Ha 3 ltac:(lia)). apply Fr; unfold A; lia.
Qed.

Lemma kern2 : forall e q (c : nat -> C), q < 2 ->
  Csum 2 (fun t => (W e 2 (q * t) * c t)%C) = match q with 0 => (c 0 + c 1)%C | _ => (c 0 - c 1)%C end.
Proof.
  intros e q c Hq. unfold Csum. cbn [bsum]. destruct q as [|[|q]]; [| |lia].
  - cbn [Nat.mul]. rewrite !W_0. ring.
  - cbn [Nat.mul Nat.add]. rewrite W_0, W_2_1. ring.
Qed.

Lemma py_dit2_bf_ok : forall e d kr cnt h k tw step (x : list C), 0 < kr -> k < kr -> h < cnt ->
  length x = cnt * (2 * kr) ->
  (forall c, c < 2 -> py_get tw (c * k * step) = Ok (W d (2 * kr) (c * k))) ->
  bf_ok 2 kr x (dit_v 2 e d kr (fun i => nth i x C0)) h k (py_dit2_bf tw step kr (h * (2 * kr)) k).
Proof.
  intros e d kr cnt h k tw step x Hkr Hk Hh Lx Ht u Lu Hu. unfold py_dit2_bf. cbv zeta.
  assert (Hlt : k + h * (2 * kr) + 1 * kr < length u) by (rewrite Lu, Lx; apply ixr_lt; lia).
  set (A := h * (2 * kr) + k). replace (h * (2 * kr) + kr + k) with (A + kr) by (unfold A; lia).
  rewrite (py_get_ok _ u (A + kr) C0), (py_get_ok _ u A C0) by (unfold A; lia). cbn [bind].
  match goal with |- exists u', (bind ?Q _) = _ /\ _ =>
    assert (EQ : Q = Ok (nth (A + kr) u C0 * W d (2 * kr) (1 * k))%C) end.
  { assert (M1 : forall c : C, (c * C1)%C = c) by (intros; ring).
    destruct (Nat.eqb_spec k 0) as [E0|Ne].
    - rewrite E0, Nat.mul_0_r, W_0, M1. auto.
    - pose proof (Ht 1 ltac:(lia)) as T1. rewrite Nat.mul_1_l in T1 |- *. rewrite T1. auto. }
  rewrite EQ. clear EQ. cbn [bind].
  edestruct (two_sets u A (A + kr)) as [u' [E [L [V0 [V1 Fr]]]]]; try (unfold A; lia).
  exists u'. split; [exact E|]. split; [lia|]. split.
  - intros t Htt. unfold dit_v. destruct (idx_split 2 kr k h t) as [A1 [A2 A3]]; auto. rewrite A1, A2, A3.
    rewrite (kern2 e t (fun t => (nth (k + h * (2 * kr) + t * kr) x C0 * W d (2 * kr) (t * k))%C)) by auto.
    rewrite <- !Hu by lia. rewrite (Nat.mul_0_l k), W_0.
    replace (k + h * (2 * kr) + 0 * kr) with A by (unfold A; lia).
    replace (k + h * (2 * kr) + 1 * kr) with (A + kr) by (unfold A; lia).
    destruct t as [|[|t]]; [| |lia].
    + replace (k + h * (2 * kr) + 0 * kr) with A by (unfold A; lia). rewrite V0. ring.
    + replace (k + h * (2 * kr) + 1 * kr) with (A + kr) by (unfold A; lia). rewrite V1. ring.
  - intros a Ha. pose proof (Ha 0 ltac:(lia)). pose proof (Ha 1 ltac:(lia)). apply Fr; unfold A; lia.
Qed.

Lemma py_dif2_bf_ok : forall e d kr cnt h k tw step (x : list C), 0 < kr -> k < kr -> h < cnt ->
  length x = cnt * (2 * kr) ->
  (forall c, c < 2 -> py_get tw (c * k * step) = Ok (W d (2 * kr) (c * k))) ->
  bf_ok 2 kr x (dif_v 2 e d kr (fun i => nth i x C0)) h k (py_dif2_bf tw step kr (h * (2 * kr)) k).
Proof.
  intros e d kr cnt h k tw step x Hkr Hk Hh Lx Ht u Lu Hu. unfold py_dif2_bf. cbv zeta.
  assert (Hlt : k + h * (2 * kr) + 1 * kr < length u) by (rewrite Lu, Lx; apply ixr_lt; lia).
  set (A := h * (2 * kr) + k). replace (h * (2 * kr) + kr + k) with (A + kr) by (unfold A; lia).
  rewrite (py_get_ok _ u (A + kr) C0), (py_get_ok _ u A C0) by (unfold A; lia). cbn [bind].
  match goal with |- exists u', (bind ?Q _) = _ /\ _ =>
    assert (EQ : Q = Ok ((nth A u C0 - nth (A + kr) u C0) * W d (2 * kr) (1 * k))%C) end.
  { assert (M1 : forall c : C, (c * C1)%C = c) by (intros; ring).
    destruct (Nat.eqb_spec k 0) as [E0|Ne].
    - rewrite E0, Nat.mul_0_r, W_0, M1. auto.
    - pose proof (Ht 1 ltac:(lia)) as T1. rewrite Nat.mul_1_l in T1 |- *. rewrite T1. auto. }
  rewrite EQ. clear EQ. cbn [bind].
  edestruct (two_sets u A (A + kr)) as [u' [E [L [V0 [V1 Fr]]]]]; try (unfold A; lia).
  exists u'. split; [exact E|]. split; [lia|]. split.
  - intros t Htt. unfold dif_v. destruct (idx_split 2 kr k h t) as [A1 [A2 A3]]; auto. rewrite A1, A2, A3.
    rewrite (kern2 e t (fun t => nth (k + h * (2 * kr) + t * kr) x C0)) by auto.
    rewrite <- !Hu by lia.
    replace (k + h * (2 * kr) + 0 * kr) with A by (unfold A; lia).
    replace (k + h * (2 * kr) + 1 * kr) with (A + kr) by (unfold A; lia).
    destruct t as [|[|t]]; [| |lia].
    + replace (k + h * (2 * kr) + 0 * kr) with A by (unfold A; lia). rewrite V0, Nat.mul_0_l, W_0. ring.
    + replace (k + h * (2 * kr) + 1 * kr) with (A + kr) by (unfold A; lia). rewrite V1. ring.
  - intros a Ha. pose proof (Ha 0 ltac:(lia)). pose proof (Ha 1 ltac:(lia)). apply Fr; unfold A; lia.
Qed.

(** ** Steps of the invariants *)
Lemma dit_v_step : forall d r p s x X X', 0 < r -> s < p -> dit_inv d r p s x X ->
  (forall a, a < r ^ p -> X' a = dit_v r d d (r ^ s) X a) -> dit_inv d r p (S s) x X'.
Proof.
  intros d r p s x X X' Hr Hs HI HX. apply dit_inv_step with (a := X); auto.
  intros b k q Hb Hk Hq.
  assert (Hkr : 0 < r ^ s) by (apply pow_pos; lia).
  assert (EP : r ^ p = r ^ (p - S s) * (r * r ^ s)).
  { rewrite <- Nat.pow_succ_r', <- Nat.pow_add_r. f_equal. lia. }
  rewrite Nat.pow_succ_r'.
  replace (b * (r * r ^ s) + (q * r ^ s + k)) with (k + b * (r * r ^ s) + q * r ^ s) by lia.
  rewrite HX by (rewrite EP; apply ixr_lt; auto).
  unfold dit_v. destruct (idx_split r (r ^ s) k b q) as [A1 [A2 A3]]; auto. rewrite A1, A2, A3.
  apply Csum_ext. intros t Ht.
  replace ((b * r + t) * r ^ s + k) with (k + b * (r * r ^ s) + t * r ^ s) by lia.
  replace (t * (q * r ^ s + k)) with ((q * t) * r ^ s + t * k) by lia.
  rewrite W_add, W_scale_r by auto. ring.
Qed.

Definition dif_inv (d : direction) (r p o : nat) (x a : nat -> C) : Prop :=
  forall h q, h < r ^ o -> q < r ^ (p - o) ->
    DFT d (r ^ p) x (digit_rev r o h + r ^ o * q) = DFT d (r ^ (p - o)) (fun k => a (h * r ^ (p - o) + k)%nat) q.

Lemma dif_v_step : forall d r p o x X X', 0 < r -> o < p -> dif_inv d r p o x X ->
  (forall a, a < r ^ p -> X' a = dif_v r d d (r ^ (p - S o)) X a) -> dif_inv d r p (S o) x X'.
Proof.
  intros d r p o x X X' Hr Ho HI HX H' q HH Hq.
  assert (Hkr : 0 < r ^ (p - S o)) by (apply pow_pos; lia).
  assert (EP : r ^ p = r ^ o * (r * r ^ (p - S o))).
  { rewrite <- Nat.pow_succ_r', <- Nat.pow_add_r. f_equal. lia. }
  rewrite Nat.pow_succ_r' in HH.
  cbn [digit_rev]. rewrite Nat.pow_succ_r'.
  assert (EH : H' = r * (H' / r) + H' mod r) by (apply Nat.div_mod; lia).
  set (h := H' / r) in *. set (t := H' mod r) in *.
  assert (Ht : t < r) by (apply Nat.mod_upper_bound; lia).
  assert (Hh : h < r ^ o) by (apply Nat.div_lt_upper_bound; lia).
  replace (t * r ^ o + digit_rev r o h + r * r ^ o * q) with (digit_rev r o h + r ^ o * (t + r * q)) by lia.
  rewrite HI; auto.
  2:{ replace (p - o) with (S (p - S o)) by lia. rewrite Nat.pow_succ_r'. nia. }
  replace (p - o) with (S (p - S o)) by lia. rewrite Nat.pow_succ_r'.
  rewrite DFT_dif by auto. apply DFT_ext. intros j Hj.
  replace (H' * r ^ (p - S o) + j) with (j + h * (r * r ^ (p - S o)) + t * r ^ (p - S o)) by lia.
  rewrite HX by (rewrite EP; apply ixr_lt; auto).
  unfold dif_v. destruct (idx_split r (r ^ (p - S o)) j h t) as [A1 [A2 A3]]; auto. rewrite A1, A2, A3.
  f_equal. apply Csum_ext. intros c Hc. rewrite (Nat.mul_comm t c).
  replace (h * (r * r ^ (p - S o)) + (j + c * r ^ (p - S o))) with (j + h * (r * r ^ (p - S o)) + c * r ^ (p - S o)) by lia.
  ring.
Qed.

(** ** The runs, for any invariant kept by the stages *)
Definition r4_tw (d : direction) (p : nat) : list C := py_twiddles d (3 * (4 ^ p / 4 - 1) + 1) (4 ^ p).
Definition r2_tw (d : direction) (p : nat) : list C := py_twiddles d (2 ^ p / 2) (2 ^ p).

Lemma r4_tw_read : forall d p s c k, s < p -> k < 4 ^ s -> c < 4 ->
  py_get (r4_tw d p) (c * k * 4 ^ (p - 1 - s)) = Ok (W d (4 * 4 ^ s) (c * k)).
Proof. intros. apply (tw_read d 4); auto; lia. Qed.

Lemma r2_tw_read : forall d p s c k, s < p -> k < 2 ^ s -> c < 2 ->
  py_get (r2_tw d p) (c * k * 2 ^ (p - 1 - s)) = Ok (W d (2 * 2 ^ s) (c * k)).
Proof.
  intros d p s c k Hs Hk Hc. unfold r2_tw.
  assert (0 < 2 ^ p / 2). { rewrite pow_div by lia. apply pow_pos. lia. }
  replace (2 ^ p / 2) with ((2 - 1) * (2 ^ p / 2 - 1) + 1) by lia. apply tw_read; auto.
Qed.

Lemma fft4_run : forall d p (x : list C) (Inv : nat -> (nat -> C) -> Prop), 0 < p -> length x = 4 ^ p ->
  Inv 0 (fun i => nth i x C0) ->
  (forall s X X', s < p -> Inv s X -> (forall a, a < 4 ^ p -> X' a = dit_v 4 Forward d (4 ^ s) X a) -> Inv (S s) X') ->
  exists y, py_fft4 x (r4_tw d p) p = Ok y /\ length y = 4 ^ p /\ Inv p (fun i => nth i y C0).
Proof.
  intros d p x Inv Hp Lx H0 HS. unfold py_fft4. destruct (Nat.eqb_spec p 0); [lia|].
  match goal with |- exists y, (bind (for_range 0 p ?B ?Z0) _) = _ /\ _ =>
    destruct (for_range_inv (nat * nat * nat * nat * list C)
      (fun s st => let '(nvar, tss, krange, block, y) := st in
         nvar = 4 * 4 ^ s /\ (s < p -> tss = 4 ^ (p - 1 - s)) /\ krange = 4 ^ s /\
         (s < p -> block = 4 ^ (p - S s)) /\ length y = 4 ^ p /\ Inv s (fun i => nth i y C0)) 0 p B Z0)
      as [[[[[nvar tss] kr] bl] y] [E [_ [_ [_ [_ [L I]]]]]]] end; try lia.
  - split; auto. split. { intros. f_equal. lia. } split; auto. split; auto.
    intros. rewrite Lx, pow_div by lia. f_equal.
  - intros s [[[[nvar tss] kr] bl] y] Hs [E1 [E2 [E3 [E4 [L I]]]]].
    specialize (E2 ltac:(lia)). specialize (E4 ltac:(lia)). subst nvar tss kr bl.
    assert (EP : 4 ^ p = 4 ^ (p - S s) * (4 * 4 ^ s)).
    { rewrite <- Nat.pow_succ_r', <- Nat.pow_add_r. f_equal. lia. }
    assert (Hkr : 0 < 4 ^ s) by (apply pow_pos; lia).
    replace (4 * 4 ^ s / 4) with (4 ^ s) by (rewrite Nat.mul_comm, Nat.div_mul; lia).
    destruct (stage_generic 4 (4 ^ s) (4 ^ (p - S s)) (py_dit4_bf (r4_tw d p) (4 ^ (p - 1 - s)) (4 ^ s))
      (dit_v 4 Forward d (4 ^ s) (fun i => nth i y C0)) y) as [y' [E [L' V]]]; auto; try lia.
    { intros h k Hh Hk. apply py_dit4_bf_ok with (cnt := 4 ^ (p - S s)); auto; try lia.
      intros c Hc. apply r4_tw_read; auto. lia. }
    cbv zeta. rewrite E. cbn [bind]. eexists. split; [reflexivity|]. cbn beta iota.
    split. { rewrite Nat.pow_succ_r'. auto. }
    split. { intros. rewrite pow_div by lia. f_equal. lia. }
    split. { rewrite Nat.pow_succ_r'. auto. }
    split. { intros. rewrite pow_div by lia. f_equal. lia. }
    split; [lia|]. apply HS with (X := fun i => nth i y C0); auto; try lia. intros a Ha. apply V. lia.
  - rewrite E. cbn [bind]. exists y. auto.
Qed.

Lemma dif_fft4_run : forall d p (x : list C) (Inv : nat -> (nat -> C) -> Prop), length x = 4 ^ p ->
  Inv 0 (fun i => nth i x C0) ->
  (forall o X X', o < p -> Inv o X -> (forall a, a < 4 ^ p -> X' a = dif_v 4 Forward d (4 ^ (p - S o)) X a) -> Inv (S o) X') ->
  exists y, py_dif_fft4 x (r4_tw d p) p = Ok y /\ length y = 4 ^ p /\ Inv p (fun i => nth i y C0).
Proof.
  intros d p x Inv Lx H0 HS. unfold py_dif_fft4. cbv zeta.
  match goal with |- exists y, (bind (for_range 0 p ?B ?Z0) _) = _ /\ _ =>
    destruct (for_range_inv (nat * nat * nat * nat * list C)
      (fun o st => let '(len, tss, krange, block, y) := st in
         len = 4 ^ (p - o) /\ tss = 4 ^ o /\ (o < p -> krange = 4 ^ (p - S o)) /\
         block = 4 ^ o /\ length y = 4 ^ p /\ Inv o (fun i => nth i y C0)) 0 p B Z0)
      as [[[[[len tss] kr] bl] y] [E [_ [_ [_ [_ [L I]]]]]]] end; try lia.
  - split. { f_equal. lia. } split; auto. split; auto. intros. rewrite pow_div by lia. f_equal.
  - intros o [[[[len tss] kr] bl] y] Ho [E1 [E2 [E3 [E4 [L I]]]]].
    specialize (E3 ltac:(lia)). subst len tss kr bl.
    assert (EP : 4 ^ p = 4 ^ o * (4 * 4 ^ (p - S o))).
    { rewrite <- Nat.pow_succ_r', <- Nat.pow_add_r. f_equal. lia. }
    assert (Hkr : 0 < 4 ^ (p - S o)) by (apply pow_pos; lia).
    rewrite (pow_div 4 (p - o)) by lia. replace (p - o - 1) with (p - S o) by lia.
    destruct (stage_generic 4 (4 ^ (p - S o)) (4 ^ o) (py_dif4_bf (r4_tw d p) (4 ^ o) (4 ^ (p - S o)))
      (dif_v 4 Forward d (4 ^ (p - S o)) (fun i => nth i y C0)) y) as [y' [E [L' V]]]; auto; try lia.
    { intros h k Hh Hk. apply py_dif4_bf_ok with (cnt := 4 ^ o); auto; try lia.
      intros c Hc. replace (4 ^ o) with (4 ^ (p - 1 - (p - S o))) by (f_equal; lia). apply r4_tw_read; auto. lia. }
    rewrite E. cbn [bind]. eexists. split; [reflexivity|]. cbn beta iota.
    split; [reflexivity|]. split. { rewrite Nat.pow_succ_r'. lia. }
    split. { intros. rewrite pow_div by lia. f_equal. lia. }
    split. { rewrite Nat.pow_succ_r'. lia. }
    split; [lia|]. apply HS with (X := fun i => nth i y C0); auto; try lia. intros a Ha. apply V. lia.
  - rewrite E. cbn [bind]. exists y. auto.
Qed.

Lemma fft2_run : forall e d p (x : list C) (Inv : nat -> (nat -> C) -> Prop), length x = 2 ^ p ->
  Inv 0 (fun i => nth i x C0) ->
  (forall s X X', s < p -> Inv s X -> (forall a, a < 2 ^ p -> X' a = dit_v 2 e d (2 ^ s) X a) -> Inv (S s) X') ->
  exists y, py_fft2 x (r2_tw d p) p = Ok y /\ length y = 2 ^ p /\ Inv p (fun i => nth i y C0).
Proof.
  intros e d p x Inv Lx H0 HS. unfold py_fft2.
  match goal with |- exists y, (bind (for_range 0 p ?B ?Z0) _) = _ /\ _ =>
    destruct (for_range_inv (nat * nat * nat * list C)
      (fun s st => let '(b_p, nvar_p, step, y) := st in
         (s < p -> b_p = 2 ^ (p - S s)) /\ nvar_p = 2 * 2 ^ s /\ (s < p -> step = 2 ^ (p - 1 - s)) /\
         length y = 2 ^ p /\ Inv s (fun i => nth i y C0)) 0 p B Z0)
      as [[[[b_p nvar] step] y] [E [_ [_ [_ [L I]]]]]] end; try lia.
  - split. { intros. rewrite Lx, pow_div by lia. f_equal. } split; auto.
    split; auto. intros. rewrite Lx, pow_div by lia. f_equal. lia.
  - intros s [[[b_p nvar] step] y] Hs [E1 [E2 [E3 [L I]]]].
    specialize (E1 ltac:(lia)). specialize (E3 ltac:(lia)). subst b_p nvar step.
    assert (EP : 2 ^ p = 2 ^ (p - S s) * (2 * 2 ^ s)).
    { rewrite <- Nat.pow_succ_r', <- Nat.pow_add_r. f_equal. lia. }
    assert (Hkr : 0 < 2 ^ s) by (apply pow_pos; lia). cbv zeta.
    replace (2 * 2 ^ s / 2) with (2 ^ s) by (rewrite Nat.mul_comm, Nat.div_mul; lia).
    destruct (stage_generic 2 (2 ^ s) (2 ^ (p - S s)) (py_dit2_bf (r2_tw d p) (2 ^ (p - 1 - s)) (2 ^ s))
      (dit_v 2 e d (2 ^ s) (fun i => nth i y C0)) y) as [y' [E [L' V]]]; auto; try lia.
    { intros h k Hh Hk. apply py_dit2_bf_ok with (cnt := 2 ^ (p - S s)); auto; try lia.
      intros c Hc. apply r2_tw_read; auto. lia. }
    rewrite E. cbn [bind]. eexists. split; [reflexivity|]. cbn beta iota.
    split. { intros. rewrite pow_div by lia. f_equal. lia. }
    split. { rewrite Nat.pow_succ_r'. lia. }
    split. { intros. rewrite pow_div by lia. f_equal. lia. }
    split; [lia|]. apply HS with (X := fun i => nth i y C0); auto; try lia. intros a Ha. apply V. lia.
  - rewrite E. cbn [bind]. exists y. auto.
Qed.

Lemma dif_fft0_run : forall e d p (x : list C) (Inv : nat -> (nat -> C) -> Prop), length x = 2 ^ p ->
  Inv 0 (fun i => nth i x C0) ->
  (forall o X X', o < p -> Inv o X -> (forall a, a < 2 ^ p -> X' a = dif_v 2 e d (2 ^ (p - S o)) X a) -> Inv (S o) X') ->
  exists y, py_dif_fft0 x (r2_tw d p) p = Ok y /\ length y = 2 ^ p /\ Inv p (fun i => nth i y C0).
Proof.
  intros e d p x Inv Lx H0 HS. unfold py_dif_fft0.
  match goal with |- exists y, (bind (for_range 0 p ?B ?Z0) _) = _ /\ _ =>
    destruct (for_range_inv (nat * nat * nat * list C)
      (fun o st => let '(b_p, nvar_p, step, y) := st in
         b_p = 2 ^ o /\ nvar_p = 2 ^ (p - o) /\ step = 2 ^ o /\
         length y = 2 ^ p /\ Inv o (fun i => nth i y C0)) 0 p B Z0)
      as [[[[b_p nvar] step] y] [E [_ [_ [_ [L I]]]]]] end; try lia.
  - split; auto. split. { rewrite Lx. f_equal. lia. } auto.
  - intros o [[[b_p nvar] step] y] Ho [E1 [E2 [E3 [L I]]]]. subst b_p nvar step.
    assert (EN : 2 ^ (p - o) = 2 * 2 ^ (p - S o)).
    { rewrite <- Nat.pow_succ_r'. f_equal. lia. }
    assert (EP : 2 ^ p = 2 ^ o * (2 * 2 ^ (p - S o))).
    { rewrite <- Nat.pow_succ_r', <- Nat.pow_add_r. f_equal. lia. }
    assert (Hkr : 0 < 2 ^ (p - S o)) by (apply pow_pos; lia). cbv zeta.
    rewrite (pow_div 2 (p - o)) by lia. replace (p - o - 1) with (p - S o) by lia. rewrite EN.
    destruct (stage_generic 2 (2 ^ (p - S o)) (2 ^ o) (py_dif2_bf (r2_tw d p) (2 ^ o) (2 ^ (p - S o)))
      (dif_v 2 e d (2 ^ (p - S o)) (fun i => nth i y C0)) y) as [y' [E [L' V]]]; auto; try lia.
    { intros h k Hh Hk. apply py_dif2_bf_ok with (cnt := 2 ^ o); auto; try lia.
      intros c Hc. replace (2 ^ o) with (2 ^ (p - 1 - (p - S o))) by (f_equal; lia). apply r2_tw_read; auto. lia. }
    rewrite E. cbn [bind]. eexists. split; [reflexivity|]. cbn beta iota.
    split. { rewrite Nat.pow_succ_r'. lia. } split; auto. split. { rewrite Nat.pow_succ_r'. lia. }
    split; [lia|]. apply HS with (X := fun i => nth i y C0); auto; try lia. intros a Ha. apply V. lia.
  - rewrite E. cbn [bind]. exists y. auto.
Qed.

(** ** End to end *)
Lemma dif_inv_0 : forall d r p x, dif_inv d r p 0 x x.
Proof.
  intros d r p x h q Hh Hq. change (r ^ 0) with 1 in *. assert (h = 0) by lia. subst h.
  rewrite Nat.sub_0_r in *. simpl (digit_rev r 0 0). rewrite Nat.add_0_l, Nat.mul_1_l. apply DFT_ext. intros. reflexivity.
Qed.

Lemma DFT_1 : forall d x, DFT d 1 x 0 = x 0.
Proof. intros. unfold DFT, Csum. cbn [bsum]. rewrite Nat.mul_0_l, W_0. ring. Qed.

Lemma dif_inv_end : forall d r p x X i, 1 < r -> dif_inv d r p p x X -> i < r ^ p ->
  X (digit_rev r p i) = DFT d (r ^ p) x i.
Proof.
  intros d r p x X i Hr I Hi.
  assert (Hd : digit_rev r p i < r ^ p) by (apply digit_rev_lt; lia).
  specialize (I (digit_rev r p i) 0 Hd). rewrite Nat.sub_diag in I. change (r ^ 0) with 1 in I.
  specialize (I ltac:(lia)). rewrite DFT_1 in I. rewrite digit_rev_invol in I by (auto; lia).
  rewrite Nat.mul_0_r, Nat.mul_1_r, !Nat.add_0_r in I. symmetry. exact I.
Qed.

Theorem r4_forward : forall p (x : list C), 2 <= p -> length x = 4 ^ p ->
  py_r4dif Forward p x = Ok (DFT_list Forward x) /\ py_r4 Forward p x = Ok (DFT_list Forward x).
Proof.
  intros p x Hp Lx. set (xs := fun i => nth i x C0).
  assert (ED : DFT_list Forward x = tab (4 ^ p) (DFT Forward (4 ^ p) xs)) by (unfold DFT_list; rewrite Lx; auto).
  rewrite ED. split.
  - unfold py_r4dif. fold (r4_tw Forward p).
    destruct (dif_fft4_run Forward p x (fun o X => dif_inv Forward 4 p o xs X)) as [y [E [L I]]]; auto.
    + apply dif_inv_0.
    + intros o X X' Ho HI HX. apply dif_v_step with (X := X); auto; lia.
    + rewrite E. cbn [bind]. rewrite (digitreversal_ok C C0) by (auto; lia). f_equal.
      apply tab_ext. intros i Hi. apply (dif_inv_end Forward 4 p xs (fun i => nth i y C0)); auto; lia.
  - unfold py_r4. rewrite (digitreversal_ok C C0) by (auto; lia). cbn [bind]. fold (r4_tw Forward p).
    destruct (fft4_run Forward p (tab (4 ^ p) (fun a => nth (digit_rev 4 p a) x C0))
      (fun s X => dit_inv Forward 4 p s xs X)) as [y [E [L I]]]; try lia.
    + apply tab_length.
    + apply dit_inv_0; [lia|]. intros i Hi. rewrite nth_tab by auto. auto.
    + intros s X X' Hs HI HX. apply dit_v_step with (X := X); auto; lia.
    + rewrite E. f_equal. apply list_eq_tab with (d := C0); auto.
      intros i Hi. apply (dit_inv_end Forward 4 p xs (fun i => nth i y C0)); auto.
Qed.

Theorem r4_backward : forall p (x : list C), 2 <= p -> length x = 4 ^ p ->
  py_r4dif Backward p x = Ok (tab (4 ^ p) (TDFT Backward p (fun i => nth i x C0))) /\
  py_r4 Backward p x = Ok (tab (4 ^ p) (TDFT Backward p (fun i => nth i x C0))).
Proof.
  intros p x Hp Lx. set (xs := fun i => nth i x C0). split.
  - unfold py_r4dif. fold (r4_tw Backward p).
    destruct (dif_fft4_run Backward p x (fun o X => tdif_inv Backward p o xs X)) as [y [E [L I]]]; auto.
    + intros h q Hh Hq. change (4 ^ 0) with 1 in *. assert (h = 0) by lia. subst h.
      rewrite Nat.sub_0_r in *. simpl (digit_rev 4 0 0). rewrite Nat.add_0_l, Nat.mul_1_l. apply TDFT_ext. intros. reflexivity.
    + intros o X X' Ho HI HX. apply tdif_inv_step with (X := X); auto.
    + rewrite E. cbn [bind]. rewrite (digitreversal_ok C C0) by (auto; lia). f_equal.
      apply tab_ext. intros i Hi.
      assert (Hr : digit_rev 4 p i < 4 ^ p) by (apply digit_rev_lt; lia).
      specialize (I (digit_rev 4 p i) 0 Hr). rewrite Nat.sub_diag in I. change (4 ^ 0) with 1 in I.
      specialize (I ltac:(lia)). rewrite TDFT_0 in I. rewrite digit_rev_invol in I by (auto; lia).
      rewrite Nat.mul_0_r, Nat.mul_1_r, !Nat.add_0_r in I. symmetry. exact I.
  - unfold py_r4. rewrite (digitreversal_ok C C0) by (auto; lia). cbn [bind]. fold (r4_tw Backward p).
    destruct (fft4_run Backward p (tab (4 ^ p) (fun a => nth (digit_rev 4 p a) x C0))
      (fun s X => tdit_inv Backward p s xs X)) as [y [E [L I]]]; try lia.
    + apply tab_length.
    + intros b k Hb Hk. change (4 ^ 0) with 1 in *. assert (k = 0) by lia. subst k.
      rewrite Nat.sub_0_r in *. rewrite TDFT_0, Nat.mul_1_r, Nat.mul_0_l, !Nat.add_0_r. rewrite nth_tab by auto. auto.
    + intros s X X' Hs HI HX. apply tdit_inv_step with (X := X); auto.
    + rewrite E. f_equal. apply list_eq_tab with (d := C0); auto. intros i Hi.
      specialize (I 0 i). rewrite Nat.sub_diag in I. change (4 ^ 0) with 1 in I.
      rewrite Nat.mul_0_l, Nat.add_0_l in I. rewrite I by (auto; lia). apply TDFT_ext. intros j Hj. f_equal. simpl. lia.
Qed.

Theorem r2_ok : forall d p (x : list C), 2 <= p -> length x = 2 ^ p ->
  py_r2dif d p x = Ok (DFT_list d x) /\ py_r2 d p x = Ok (DFT_list d x).
Proof.
  intros d p x Hp Lx. set (xs := fun i => nth i x C0).
  assert (ED : DFT_list d x = tab (2 ^ p) (DFT d (2 ^ p) xs)) by (unfold DFT_list; rewrite Lx; auto).
  rewrite ED. split.
  - unfold py_r2dif. fold (r2_tw d p).
    destruct (dif_fft0_run d d p x (fun o X => dif_inv d 2 p o xs X)) as [y [E [L I]]]; auto.
    + apply dif_inv_0.
    + intros o X X' Ho HI HX. apply dif_v_step with (X := X); auto.
    + rewrite E. cbn [bind]. rewrite (digitreversal_ok C C0) by (auto; lia). f_equal.
      apply tab_ext. intros i Hi. apply (dif_inv_end d 2 p xs (fun i => nth i y C0)); auto.
  - unfold py_r2. rewrite (digitreversal_ok C C0) by (auto; lia). cbn [bind]. fold (r2_tw d p).
    destruct (fft2_run d d p (tab (2 ^ p) (fun a => nth (digit_rev 2 p a) x C0))
      (fun s X => dit_inv d 2 p s xs X)) as [y [E [L I]]]; try lia.
    + apply tab_length.
    + apply dit_inv_0; [lia|]. intros i Hi. rewrite nth_tab by auto. auto.
    + intros s X X' Hs HI HX. apply dit_v_step with (X := X); auto.
    + rewrite E. f_equal. apply list_eq_tab with (d := C0); auto.
      intros i Hi. apply (dit_inv_end d 2 p xs (fun i => nth i y C0)); auto.
Qed.

(** Orders 0 and 1: the reordering fails with an IndexError. *)
Theorem r_short : forall d p (x : list C), p <= 1 ->
  (length x = 4 ^ p -> py_r4dif d p x = Throw /\ py_r4 d p x = Throw) /\
  (length x = 2 ^ p -> py_r2dif d p x = Throw /\ py_r2 d p x = Throw).
Proof.
  intros d p x Hp. split; intros Lx; split.
  - unfold py_r4dif. fold (r4_tw d p).
    destruct (dif_fft4_run d p x (fun _ _ => True)) as [y [E [L _]]]; auto.
    rewrite E. cbn [bind]. apply digitreversal_short; auto; lia.
  - unfold py_r4. rewrite digitreversal_short by (auto; lia). auto.
  - unfold py_r2dif. fold (r2_tw d p).
    destruct (dif_fft0_run d d p x (fun _ _ => True)) as [y [E [L _]]]; auto.
    rewrite E. cbn [bind]. apply digitreversal_short; auto.
  - unfold py_r2. rewrite digitreversal_short by (auto; lia). auto.
Qed.
