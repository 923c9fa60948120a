(** Property theorems C15 - C18: statistics, closeness, normalisation.
    Specification in Spec/Statistics.v. *)
From Coq Require Import Reals List Arith ZArith Lia Lra Bool.
From Verif Require Import Base.Outcome Base.OutcomeFacts Base.Cplx Model.Statistics Spec.Statistics Proof.StatisticsProof.
Import ListNotations.
Local Open Scope R_scope.

(** ** C15 *)

(** mean: empty exactly for empty input, otherwise sum / size. *)
Theorem C15_mean : forall x, well_formed x -> int_extents x ->
  (obj_size x = 0%nat -> mean x = Ok None) /\
  (obj_size x <> 0%nat -> mean x = Ok (Some (total (entries x) / INR (obj_size x)))).
Proof.
  intros x Hw Hi. rewrite mean_ok by auto. unfold average. rewrite entries_length by auto.
  destruct (Nat.eqb_spec (obj_size x) 0); split; intros; auto; contradiction.
Qed.

(** It lies between any lower and any upper bound of the elements. *)
Theorem C15_mean_bounds : forall x lo hi m, well_formed x -> int_extents x -> (forall v, In v (entries x) -> lo <= v <= hi) ->
  mean x = Ok (Some m) -> lo <= m <= hi.
Proof.
  intros x lo hi m Hw Hi Hb. rewrite mean_ok by auto. destruct (Nat.eqb_spec (obj_size x) 0); [discriminate|]. intros E. injection E as <-.
  apply average_bounds; auto. intros Z. rewrite <- entries_length, Z in n by auto. cbn in n. lia.
Qed.

Theorem C15_mean_affine : forall x a b m, well_formed x -> int_extents x -> mean x = Ok (Some m) ->
  mean (obj_map (fun v => a * v + b) x) = Ok (Some (a * m + b)).
Proof.
  intros x a b m Hw Hi. rewrite !mean_ok; auto using obj_map_wf; [|destruct x; cbn in *; rewrite ?map_length; auto].
  assert (S : obj_size (obj_map (fun v => a * v + b) x) = obj_size x) by (destruct x; cbn; rewrite ?map_length; auto).
  rewrite S. destruct (Nat.eqb_spec (obj_size x) 0); [discriminate|]. intros E. injection E as <-.
  rewrite obj_map_entries, average_affine; auto. intros Z. rewrite <- entries_length, Z in n by auto. cbn in n. lia.
Qed.

(** variance: empty exactly for fewer than two elements, otherwise the population variance. *)
Theorem C15_variance : forall x, well_formed x -> int_extents x ->
  ((obj_size x < 2)%nat -> variance x = Ok None) /\
  ((2 <= obj_size x)%nat -> variance x = Ok (Some (pvariance (entries x)))).
Proof.
  intros x Hw Hi. rewrite variance_ok by auto. destruct (Nat.ltb_spec (obj_size x) 2); split; intros; auto; lia.
Qed.

Theorem C15_variance_sign : forall x s, well_formed x -> int_extents x -> variance x = Ok (Some s) ->
  0 <= s /\ (s = 0 <-> forall u v, In u (entries x) -> In v (entries x) -> u = v).
Proof.
  intros x s Hw Hi. rewrite variance_ok by auto. destruct (Nat.ltb_spec (obj_size x) 2); [discriminate|]. intros E. injection E as <-.
  assert (NE : entries x <> []). { intros Z. rewrite <- entries_length, Z in H by auto. cbn in H. lia. }
  split; [apply pvariance_nonneg|apply pvariance_zero]; auto.
Qed.

(** Adding a constant leaves it, scaling by a multiplies it by a^2. *)
Theorem C15_variance_affine : forall x a b s, well_formed x -> int_extents x -> variance x = Ok (Some s) ->
  variance (obj_map (fun v => a * v + b) x) = Ok (Some (a * a * s)).
Proof.
  intros x a b s Hw Hi. rewrite !variance_ok; auto using obj_map_wf; [|destruct x; cbn in *; rewrite ?map_length; auto].
  assert (S : obj_size (obj_map (fun v => a * v + b) x) = obj_size x) by (destruct x; cbn; rewrite ?map_length; auto).
  rewrite S. destruct (Nat.ltb_spec (obj_size x) 2); [discriminate|]. intros E. injection E as <-.
  rewrite obj_map_entries, pvariance_affine; auto. intros Z. rewrite <- entries_length, Z in H by auto. cbn in H. lia.
Qed.

Theorem C15_standard_deviation : forall x, well_formed x -> int_extents x ->
  ((obj_size x < 2)%nat -> standard_deviation x = Ok None) /\
  ((2 <= obj_size x)%nat -> exists d, standard_deviation x = Ok (Some d) /\ 0 <= d /\ variance x = Ok (Some (d * d))).
Proof.
  intros x Hw Hi. unfold standard_deviation. rewrite variance_ok by auto.
  destruct (Nat.ltb_spec (obj_size x) 2); cbn [bind]; split; intros; auto; try lia.
  eexists. split; [reflexivity|]. split; [apply sqrt_pos|]. rewrite sqrt_sqrt; auto. apply pvariance_nonneg.
  intros Z. rewrite <- entries_length, Z in H by auto. cbn in H. lia.
Qed.

(** Finding: the loop counters are ints, so a vector of 2^31 or more elements overflows them. *)
Theorem C15_long_vector_overflows : forall v, (2 ^ 31 <= Z.of_nat (length v))%Z ->
  mean (Vec v) = UB /\ variance (Vec v) = UB.
Proof.
  intros v Hv. assert (M : mean_unchecked (Vec v) = UB).
  { unfold mean_unchecked, fold_obj. rewrite loop_int_overflow; auto. intros i s. unfold rd. destruct (nth_error v i); discriminate. }
  unfold mean, variance. cbn [obj_size].
  destruct (Nat.ltb_spec (length v) 1); [lia|]. destruct (Nat.ltb_spec (length v) 2); [lia|]. rewrite M. auto.
Qed.

(** Vector and matrix instances. *)
Example C15_instance : mean (Mat 2 2 [[1; 3]; [5; 7]]) = Ok (Some 4) /\ variance (Mat 2 2 [[1; 3]; [5; 7]]) = Ok (Some 5).
Proof.
  assert (W : well_formed (Mat 2 2 [[1; 3]; [5; 7]])).
  { split; [reflexivity|]. intros row [<-|[<-|[]]]; reflexivity. }
  assert (I : int_extents (Mat 2 2 [[1; 3]; [5; 7]])) by (split; reflexivity).
  rewrite mean_ok, variance_ok by auto. cbn. unfold average, pvariance, average. cbn. split; f_equal; f_equal; field.
Qed.

(** ** C16 *)

Theorem C16_allclose : forall x y tol, well_formed x -> well_formed y -> same_shape x y -> int_extents x ->
  exists b, allclose x y tol = Ok b /\
    (b = true <-> forall i, (i < obj_size x)%nat -> Rabs (nth i (entries x) 0 - nth i (entries y) 0) <= tol).
Proof.
  intros x y tol Wx Wy Hs Hi. eexists. split; [apply allmatch2_ok; auto|].
  rewrite (forallb_combine _ _ 0 0 (fun l r => Rleb (Rabs (l - r)) tol)) by (apply same_entries; auto). rewrite entries_length by auto.
  split; intros H i Hi'; apply Rleb_true; auto.
Qed.

Theorem C16_allclose_complex : forall x y tol, well_formed x -> well_formed y -> same_shape x y -> int_extents x ->
  exists b, allclose_c x y tol = Ok b /\
    (b = true <-> forall i, (i < obj_size x)%nat -> Cabs (nth i (entries x) C0 - nth i (entries y) C0)%C <= tol).
Proof.
  intros x y tol Wx Wy Hs Hi. eexists. split; [apply allmatch2_ok; auto|].
  rewrite (forallb_combine _ _ C0 C0 (fun l r => Rleb (Cabs (l - r)%C) tol)) by (apply same_entries; auto). rewrite entries_length by auto.
  split; intros H i Hi'; apply Rleb_true; auto.
Qed.

Theorem C16_allclose_reflexive : forall x tol, well_formed x -> int_extents x -> 0 <= tol -> allclose x x tol = Ok true.
Proof.
  intros x tol W Hi Ht. destruct (C16_allclose x x tol W W (shape_refl _ x) Hi) as (b & E & B). rewrite E. f_equal. apply B.
  intros i _. rewrite Rminus_diag_eq, Rabs_R0 by auto. auto.
Qed.

(** The default tolerances: 1e-5 for float, 1e-9 otherwise. *)
Theorem C16_allclose_default : forall single x y, well_formed x -> well_formed y -> same_shape x y -> int_extents x ->
  exists b, allclose_default single x y = Ok b /\
    (b = true <-> forall i, (i < obj_size x)%nat ->
       Rabs (nth i (entries x) 0 - nth i (entries y) 0) * (if single then 100000 else 1000000000) <= 1).
Proof.
  intros single x y Wx Wy Hs Hi. destruct (C16_allclose x y (default_tolerance single) Wx Wy Hs Hi) as (b & E & B).
  exists b. split; [exact E|]. rewrite B. unfold default_tolerance.
  split; intros H i Hi'; specialize (H i Hi'); set (d := Rabs _) in *; destruct single; cbn [pow] in *; lra.
Qed.

(** In particular with the default tolerances. *)
Theorem C16_allclose_default_reflexive : forall single x, well_formed x -> int_extents x -> allclose_default single x x = Ok true.
Proof.
  intros single x W Hi. apply C16_allclose_reflexive; auto. unfold default_tolerance.
  destruct single; apply Rlt_le, Rinv_0_lt_compat, pow_lt; lra.
Qed.

Theorem C16_allclose_symmetric : forall x y tol, well_formed x -> well_formed y -> same_shape x y -> int_extents x ->
  allclose x y tol = allclose y x tol.
Proof.
  intros x y tol Wx Wy Hs Hi.
  destruct (C16_allclose x y tol Wx Wy Hs Hi) as (b & E & B).
  destruct (C16_allclose y x tol Wy Wx (shape_sym _ _ _ _ Hs) (shape_ints _ _ _ _ Hs Hi)) as (b' & E' & B'). rewrite E, E'. f_equal.
  assert (S : obj_size x = obj_size y) by (rewrite <- !entries_length by auto; apply same_entries; auto).
  assert (H : b = true <-> b' = true).
  { rewrite B, B', S. split; intros H i Hi'; rewrite Rabs_minus_sym; auto. }
  destruct b, b'; auto; [symmetry|]; apply H; auto.
Qed.

Theorem C16_allclose_monotone : forall x y t t', well_formed x -> well_formed y -> same_shape x y -> int_extents x -> t <= t' ->
  allclose x y t = Ok true -> allclose x y t' = Ok true.
Proof.
  intros x y t t' Wx Wy Hs Hi Ht E0.
  destruct (C16_allclose x y t Wx Wy Hs Hi) as (b & E & B). destruct (C16_allclose x y t' Wx Wy Hs Hi) as (b' & E' & B').
  rewrite E' in *. rewrite E0 in E. injection E as <-. f_equal. apply B'. intros i Hi'. pose proof (proj1 B eq_refl i Hi'). lra.
Qed.

(** With tolerance 0 it holds only for equal objects. *)
Theorem C16_allclose_exact : forall x y, well_formed x -> well_formed y -> same_shape x y -> int_extents x ->
  allclose x y 0 = Ok true <-> x = y.
Proof.
  intros x y Wx Wy Hs Hi. split.
  - intros E0. destruct (C16_allclose x y 0 Wx Wy Hs Hi) as (b & E & B). rewrite E0 in E. injection E as <-.
    apply shape_entries_eq; auto. apply (list_eq_nth _ 0). { apply same_entries; auto. }
    intros i Hi'. rewrite entries_length in Hi' by auto. pose proof (proj1 B eq_refl i Hi') as H.
    set (d := nth i (entries x) 0 - nth i (entries y) 0) in *. assert (d = 0).
    { destruct (Req_dec d 0); auto. pose proof (Rabs_no_R0 d H0). pose proof (Rabs_pos d). lra. }
    unfold d in *. lra.
  - intros <-. apply C16_allclose_reflexive; auto. lra.
Qed.

(** Different extents are not rejected: a longer right-hand side is compared on its prefix
    only, a shorter one is read out of bounds. *)
Theorem C16_mismatched_extents_refuted :
  (forall v w z tol, (length v <= length w)%nat -> allclose (Vec v) (Vec (w ++ z)) tol = allclose (Vec v) (Vec w) tol) /\
  (forall v w tol, (length w < length v)%nat -> (Z.of_nat (length w) < 2 ^ 31)%Z ->
     (forall i, (i < length w)%nat -> Rabs (nth i v 0 - nth i w 0) <= tol) -> allclose (Vec v) (Vec w) tol = UB) /\
  allclose (Vec [1]) (Vec [1; 5]) 0 = Ok true /\ allclose (Vec [1; 5]) (Vec [1]) 0 = UB.
Proof.
  assert (P2 : forall v w tol, (length w < length v)%nat -> (Z.of_nat (length w) < 2 ^ 31)%Z ->
     (forall i, (i < length w)%nat -> Rabs (nth i v 0 - nth i w 0) <= tol) -> allclose (Vec v) (Vec w) tol = UB).
  { intros v w tol H Hi Hp. apply (allmatch2_longer_ub _ _ 0 0); auto. intros i Hi'. apply Rleb_true. auto. }
  split; [|split; [exact P2|split]].
  - intros. apply allmatch2_prefix. auto.
  - change [1; 5] with ([1] ++ [5]). transitivity (allclose (Vec [1]) (Vec [1]) 0).
    { apply allmatch2_prefix. cbn; lia. } apply C16_allclose_reflexive; [exact I|reflexivity|lra].
  - apply P2; cbn; try lia. intros [|i] Hi; [|lia]. cbn. rewrite Rminus_diag_eq, Rabs_R0 by auto. lra.
Qed.

Theorem C16_mse : forall x y, well_formed x -> well_formed y -> same_shape x y -> (0 < obj_size x)%nat ->
  exists e, mse_r x y = Ok e /\ mse_r y x = Ok e /\ 0 <= e /\ (e = 0 <-> x = y) /\ rmse_r x y = Ok (sqrt e) /\
    e = total (map (fun q => (fst q - snd q) ^ 2) (combine (entries x) (entries y))) / INR (obj_size x).
Proof.
  intros x y Wx Wy Hs Hn. pose proof (same_entries _ _ x y Wx Wy Hs) as L.
  eexists. split; [apply mse_ok; auto|]. split.
  { unfold mse_r. rewrite mse_ok by auto using shape_sym. f_equal. rewrite (combine_swap _ _ (entries x) (entries y)), map_map.
    f_equal. apply map_ext. intros q. cbn. ring. }
  set (sq := map _ _). assert (Ls : length sq = obj_size x).
  { unfold sq. rewrite map_length, combine_length, <- L, Nat.min_id, entries_length by auto. reflexivity. }
  assert (P : 0 < INR (length sq)) by (apply lt_0_INR; lia).
  assert (NN : forall v, In v sq -> 0 <= v).
  { intros v Hv. apply in_map_iff in Hv. destruct Hv as (q & <- & _). apply Rle_0_sqr. }
  split; [|split; [|split]].
  - apply Rmult_le_pos; [apply total_nonneg; auto|]. apply Rlt_le, Rinv_0_lt_compat. auto.
  - split.
    + intros E. assert (T : total sq = 0).
      { apply (Rmult_eq_reg_r (/ INR (length sq))); [|apply Rinv_neq_0_compat; lra]. rewrite Rmult_0_l. exact E. }
      apply shape_entries_eq; auto. apply combine_eq; auto. intros q Hq.
      assert (Z : (fst q - snd q) * (fst q - snd q) = 0); [|apply Rmult_integral in Z; lra].
      apply (total_zero sq NN T). unfold sq. apply in_map_iff. eauto.
    + intros <-. unfold average. replace (total sq) with 0; [unfold Rdiv; ring|]. unfold sq.
      rewrite <- (map_id (entries x)) at 1 2. rewrite combine_map_map, map_map. cbn [fst snd].
      rewrite (total_ext _ _ (fun _ => 0)) by (intros; ring). rewrite total_const. ring.
  - unfold rmse_r, mse_r. rewrite mse_ok by auto. reflexivity.
  - unfold average. rewrite Ls. f_equal. apply total_ext. intros; ring.
Qed.

(** Complex elements: only magnitudes are compared. *)
Theorem C16_complex_mse_refuted : mse_c (Vec [(1, 0)]) (Vec [(0, 1)]) = Ok 0 /\ (1, 0) <> (0, 1).
Proof.
  split.
  - unfold mse_c. rewrite mse_ok by (cbn; auto). cbn. unfold average. cbn. f_equal. unfold Cabs. cbn.
    replace (Cnorm2 (0, 1)) with (Cnorm2 (1, 0)) by (unfold Cnorm2; cbn; ring). field.
  - intros E. injection E. intros. lra.
Qed.

(** Instances. *)
Example C16_instance : allclose (Mat 1 2 [[1; 2]]) (Mat 1 2 [[1; 3]]) 1 = Ok true /\
  mse_r (Mat 1 2 [[1; 2]]) (Mat 1 2 [[1; 4]]) = Ok 2.
Proof.
  assert (W : forall a b : R, well_formed (Mat 1 2 [[a; b]])) by (intros; split; [reflexivity|]; intros row [<-|[]]; reflexivity).
  split.
  - destruct (C16_allclose (Mat 1 2 [[1; 2]]) (Mat 1 2 [[1; 3]]) 1) as (b & E & B); auto; try (split; reflexivity).
    rewrite E. f_equal. apply B. cbn. intros [|[|i]] Hi; try lia; cbn; unfold Rabs; destruct (Rcase_abs _); lra.
  - unfold mse_r. rewrite mse_ok; auto; [|split; reflexivity]. unfold average. cbn. f_equal. field.
Qed.

(** ** C17 *)

Theorem C17_normalize_energy : forall x, well_formed x ->
  exists a, 0 < a /\ normalize_energy x = Ok (obj_map (fun v => v * a) x) /\
    (energy (entries x) <> 0 -> energy (entries (obj_map (fun v => v * a) x)) = 1) /\
    ((forall v, In v (entries x) -> v = 0) -> obj_map (fun v => v * a) x = x).
Proof.
  intros x Hw. exists (energy_factor (entries x)). split; [apply energy_factor_pos|]. split; [apply normalize_energy_ok; auto|]. split.
  - intros H. rewrite obj_map_entries. apply energy_normalised; auto.
  - intros H. apply obj_map_same. intros v Hv. rewrite (H v Hv). ring.
Qed.

Theorem C17_normalize_energy_idempotent : forall x y, well_formed x -> normalize_energy x = Ok y -> normalize_energy y = Ok y.
Proof.
  intros x y Hw. rewrite normalize_energy_ok by auto. intros E. injection E as <-.
  rewrite normalize_energy_ok by (apply obj_map_wf; auto). f_equal. apply obj_map_same. intros v _. rewrite obj_map_entries, energy_factor_one; [ring|].
  destruct (Req_dec (energy (entries x)) 0) as [Z|Z]; [left|right; apply energy_normalised; auto].
  rewrite energy_scale, Z. ring.
Qed.

Theorem C17_normalize_energy_rescaled : forall x c, well_formed x -> 0 < c ->
  normalize_energy (obj_map (fun v => v * c) x) = normalize_energy x.
Proof.
  intros x c Hw Hc. rewrite !normalize_energy_ok by auto using obj_map_wf. f_equal. rewrite obj_map_map, obj_map_entries.
  destruct (Req_dec (energy (entries x)) 0) as [Z|Z].
  - apply obj_map_ext. intros v Hv. rewrite (proj1 (energy_zero _) Z v Hv). ring.
  - rewrite energy_factor_scale by auto. apply obj_map_ext. intros v _. field. lra.
Qed.

Theorem C17_normalize_peak : forall x, well_formed x ->
  exists a, 0 < a /\ normalize_peak x = Ok (obj_map (fun v => v * a) x) /\
    ((exists v, In v (entries x) /\ v <> 0) -> is_peak (entries (obj_map (fun v => v * a) x)) 1) /\
    ((forall v, In v (entries x) -> v = 0) -> obj_map (fun v => v * a) x = x).
Proof.
  intros x Hw. exists (peak_factor (entries x)). split; [apply peak_factor_pos|]. split; [apply normalize_peak_ok; auto|]. split.
  - intros (v & Hv & Nv). rewrite obj_map_entries.
    rewrite <- (peak_normalised (entries x)) by (intros Z; apply Nv; apply (proj1 (peak_zero _) Z); auto).
    apply peak_of_spec. intros E. apply map_eq_nil in E. rewrite E in Hv. destruct Hv.
  - intros H. apply obj_map_same. intros v Hv. rewrite (H v Hv). ring.
Qed.

Theorem C17_normalize_peak_idempotent : forall x y, well_formed x -> normalize_peak x = Ok y -> normalize_peak y = Ok y.
Proof.
  intros x y Hw. rewrite normalize_peak_ok by auto. intros E. injection E as <-.
  rewrite normalize_peak_ok by (apply obj_map_wf; auto). f_equal. apply obj_map_same. intros v _. rewrite obj_map_entries, peak_factor_one; [ring|].
  destruct (Req_dec (peak_of (entries x)) 0) as [Z|Z]; [left|right; apply peak_normalised; auto].
  rewrite peak_scale, Z by (apply Rlt_le, peak_factor_pos). ring.
Qed.

Theorem C17_normalize_peak_rescaled : forall x c, well_formed x -> 0 < c ->
  normalize_peak (obj_map (fun v => v * c) x) = normalize_peak x.
Proof.
  intros x c Hw Hc. rewrite !normalize_peak_ok by auto using obj_map_wf. f_equal. rewrite obj_map_map, obj_map_entries.
  destruct (Req_dec (peak_of (entries x)) 0) as [Z|Z].
  - apply obj_map_ext. intros v Hv. rewrite (proj1 (peak_zero _) Z v Hv). ring.
  - rewrite peak_factor_scale by auto. apply obj_map_ext. intros v _. field. lra.
Qed.

Example C17_instance : normalize_energy (Vec [3; 4]) = Ok (Vec [3 / 5; 4 / 5]) /\ normalize_peak (Vec [3; -4]) = Ok (Vec [3 / 4; -1]).
Proof.
  split.
  - rewrite normalize_energy_ok by exact I. cbn [obj_map map entries]. unfold energy_factor.
    replace (energy [3; 4]) with (5 * 5) by (unfold energy; cbn; ring).
    destruct (exact (5 * 5) 0) eqn:E; [apply exact_true in E; lra|]. rewrite sqrt_square by lra. f_equal. f_equal. repeat (f_equal; try field).
  - rewrite normalize_peak_ok by exact I. cbn [obj_map map entries]. unfold peak_factor.
    assert (P : peak_of [3; -4] = 4).
    { unfold peak_of. cbn. rewrite (Rabs_right 3), (Rabs_left (-4)) by lra. rewrite (Rmax_right 0 3) by lra. rewrite Rmax_right by lra. lra. }
    rewrite P. destruct (exact 4 0) eqn:E; [apply exact_true in E; lra|]. f_equal. f_equal. repeat (f_equal; try field).
Qed.

(** ** C18 *)

(** One common factor; the smallest f with f^2 * energy = 1 over the channels (f = 1 for a
    silent channel).  So no channel with energy ends above 1, and some channel reaches its own
    factor exactly. *)
Theorem C18_normalize_impulse : forall r c m, well_formed (Mat r c m) -> (0 < r)%nat ->
  exists a, 0 < a /\ normalize_impulse (Mat r c m) = Ok (Mat r c (map (map (fun v => v * a)) m)) /\
    (forall ch, In ch m -> energy ch <> 0 -> energy (map (fun v => v * a) ch) <= 1) /\
    ((exists ch, In ch m /\ energy ch = 0) -> a <= 1) /\
    ((exists ch, In ch m /\ energy ch <> 0 /\ energy (map (fun v => v * a) ch) = 1) \/
     (a = 1 /\ exists ch, In ch m /\ energy ch = 0)).
Proof.
  intros r c m Hw Hr. assert (NE : m <> []) by (destruct Hw as [L _]; intros ->; cbn in L; lia).
  destruct (impulse_factor_spec m NE) as [Hmin (c0 & Hc0 & E0)]. exists (impulse_factor m).
  assert (P : 0 < impulse_factor m) by (rewrite E0; apply energy_factor_pos). split; auto. split; [|split; [|split]].
  - rewrite normalize_impulse_ok by auto. reflexivity.
  - intros ch Hch N. rewrite energy_scale. pose proof (Hmin ch Hch). pose proof (energy_factor_unit ch N). pose proof (energy_nonneg ch).
    assert (impulse_factor m * impulse_factor m <= energy_factor ch * energy_factor ch) by nra. nra.
  - intros (ch & Hch & Z). rewrite <- (energy_factor_one ch) by auto. auto.
  - destruct (Req_dec (energy c0) 0) as [Z|Z].
    + right. split; [rewrite E0; apply energy_factor_one; auto|eauto].
    + left. exists c0. split; auto. split; auto. rewrite energy_scale, E0. apply energy_factor_unit; auto.
Qed.

(** Rank 1 is normalize_energy; no channels: nothing happens. *)
Theorem C18_normalize_impulse_vector : forall v c, normalize_impulse (Vec v) = normalize_energy (Vec v) /\
  normalize_impulse (Mat 0 c []) = Ok (Mat 0 c []).
Proof. intros; split; reflexivity. Qed.

Example C18_instance : exists a, 0 < a /\
  normalize_impulse (Mat 2 2 [[3; 4]; [0; 1]]) = Ok (Mat 2 2 [[3 * a; 4 * a]; [0 * a; 1 * a]]) /\ a = 1 / 5.
Proof.
  exists (1 / 5). split; [lra|]. split; auto. rewrite normalize_impulse_ok.
  - cbn [obj_map map impulse_factor fold_left]. unfold energy_factor.
    replace (energy [3; 4]) with (5 * 5) by (unfold energy; cbn; ring). replace (energy [0; 1]) with 1 by (unfold energy; cbn; ring).
    destruct (exact (5 * 5) 0) eqn:E; [apply exact_true in E; lra|]. destruct (exact 1 0) eqn:E1; [apply exact_true in E1; lra|].
    rewrite sqrt_square, sqrt_1 by lra. rewrite Rmin_left by lra. reflexivity.
  - split; [reflexivity|]. intros row [<-|[<-|[]]]; reflexivity.
Qed.

Print Assumptions C15_mean.
Print Assumptions C15_mean_bounds.
Print Assumptions C15_mean_affine.
Print Assumptions C15_variance.
Print Assumptions C15_variance_sign.
Print Assumptions C15_variance_affine.
Print Assumptions C15_standard_deviation.
Print Assumptions C15_long_vector_overflows.
Print Assumptions C16_allclose.
Print Assumptions C16_allclose_complex.
Print Assumptions C16_allclose_reflexive.
Print Assumptions C16_allclose_default.
Print Assumptions C16_allclose_default_reflexive.
Print Assumptions C16_allclose_symmetric.
Print Assumptions C16_allclose_monotone.
Print Assumptions C16_allclose_exact.
Print Assumptions C16_mismatched_extents_refuted.
Print Assumptions C16_mse.
Print Assumptions C16_complex_mse_refuted.
Print Assumptions C17_normalize_energy.
Print Assumptions C17_normalize_energy_idempotent.
Print Assumptions C17_normalize_energy_rescaled.
Print Assumptions C17_normalize_peak.
Print Assumptions C17_normalize_peak_idempotent.
Print Assumptions C17_normalize_peak_rescaled.
Print Assumptions C18_normalize_impulse.
Print Assumptions C18_normalize_impulse_vector.
