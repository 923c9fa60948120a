(** Property theorems C65: the Python module (neo.fft.fft, neo.fft.ifft, neo.fft.rfftfreq,
    neo.convolve).  Specification: Spec/Numpy.v (elements of an array, norm factors),
    Spec/Dft.v, Spec/Convolution.v. *)
From Coq Require Import Reals ZArith List Arith Bool String Lia Lra.
From Flocq Require Import Core.
From Verif Require Import Base.Outcome Base.OutcomeFacts Base.Sums Base.Cplx Spec.Dft Spec.Convolution Spec.Numpy.
From Verif Require Import Model.Integers Model.Fft2 Model.Algorithm Model.Convolution Model.Units Model.FixedPoint Model.PythonBindings.
From Verif Require Import Proof.DftTheory Proof.FftCorollaries Proof.DirectConvProof Proof.ConvTheory Proof.ConvCorollaries Proof.FftConvProof Proof.AlgorithmProof.
From Verif Require Import Proof.PythonProof Proof.PythonConv Props.UnitsProps.
Import ListNotations.
Local Open Scope nat_scope.
Local Arguments Nat.pow : simpl never.

Definition complex_dtype (d : dtype) : Prop := d = Complex64 \/ d = Complex128.
Definition real_dtype (d : dtype) : Prop := d = Float32 \/ d = Float64.

(** fft and ifft of a complex array of any layout (strided, reversed, broadcast), whatever
    the result's memory contained: the DFT times numpy's factor. *)
Theorem C65_fft : forall raw dir x p s n norm f, vector x (2 ^ p) s -> whole_stride x s -> nd_writeable x = true ->
  complex_dtype (nd_dtype x) -> 0 < p <= 27 -> n = None \/ n = Some (2 ^ p) -> np_factor dir norm (2 ^ p) = Some f ->
  py_fft raw dir x n norm = Ok (map (Cscale f) (DFT_list dir (np_values x (2 ^ p) s))).
Proof.
  intros raw dir x p s n norm f V Ws W Hd Hp Hn Hf. unfold py_fft.
  destruct (norm_factor dir norm (2 ^ p) f ltac:(pose proof (Nat.pow_nonzero 2 p); lia) Hf) as (m & -> & Fm). cbn [bind].
  rewrite resolve_fft_exact by auto. cbn [bind]. rewrite ensure_same by auto.
  destruct (as_view C x _ s V Ws W) as (v & Ev & En & El).
  rewrite (binding_fft_ok raw dir x v (np_values x (2 ^ p) s) n m p) by (auto; try (rewrite np_values_length; lia); destruct Hn as [-> | ->]; auto).
  rewrite np_values_length, skipn_all2, app_nil_r, Fm by (rewrite tab_length; lia). reflexivity.
Qed.

(** Real, integer and other arrays are converted to complex64 first — also when they hold
    doubles; here the layout and the writeable flag do not matter. *)
Theorem C65_fft_converted : forall raw dir x p s n norm f, vector x (2 ^ p) s ->
  ~ complex_dtype (nd_dtype x) -> 0 < p <= 27 -> n = None \/ n = Some (2 ^ p) -> np_factor dir norm (2 ^ p) = Some f ->
  py_fft raw dir x n norm = Ok (map (Cscale f) (DFT_list dir (map (fun v => (rnd32 (fst v), rnd32 (snd v))) (np_values x (2 ^ p) s)))).
Proof.
  intros raw dir x p s n norm f V Hd Hp Hn Hf. unfold py_fft.
  destruct (norm_factor dir norm (2 ^ p) f ltac:(pose proof (Nat.pow_nonzero 2 p); lia) Hf) as (m & -> & Fm). cbn [bind].
  assert (D1 : nd_dtype x <> Complex64) by (intros E; apply Hd; left; auto). assert (D2 : nd_dtype x <> Complex128) by (intros E; apply Hd; right; auto).
  rewrite resolve_fft_other by auto. cbn [bind size_of].
  destruct (ensure_other C cast_complex Complex64 8 x C0 (2 ^ p) s D1 V ltac:(lia) ltac:(pose proof (pow_Z p 27 ltac:(lia)); unfold word; lia)) as (V' & Ws & W & Ex).
  destruct (as_view C _ _ 8%Z V' Ws W) as (v & Ev & En & El). rewrite Ex in El.
  rewrite (binding_fft_ok raw dir _ v (map (cast_complex Complex64) (np_values x (2 ^ p) s)) n m p) by (auto; try (rewrite map_length, np_values_length; lia); destruct Hn as [-> | ->]; auto).
  rewrite map_length, np_values_length, skipn_all2, app_nil_r, Fm by (rewrite tab_length; lia). reflexivity.
Qed.

(** ifft(fft(x, norm), norm) = x, and the other way round, for every norm. *)
Theorem C65_round_trip : forall raw raw' dir x p s norm f, vector x (2 ^ p) s -> whole_stride x s -> nd_writeable x = true ->
  complex_dtype (nd_dtype x) -> 0 < p <= 27 -> np_factor dir norm (2 ^ p) = Some f ->
  exists y, py_fft raw dir x None norm = Ok y /\
    forall z t, vector z (2 ^ p) t -> whole_stride z t -> nd_writeable z = true -> complex_dtype (nd_dtype z) -> np_values z (2 ^ p) t = y ->
    py_fft raw' (flip dir) z None norm = Ok (np_values x (2 ^ p) s).
Proof.
  intros raw raw' dir x p s norm f V Ws W Hd Hp Hf. eexists. split; [apply (C65_fft raw dir x p s None norm f); auto|].
  intros z t Vz Wsz Wz Hdz Ez. assert (P : 0 < 2 ^ p) by (pose proof (Nat.pow_nonzero 2 p); lia).
  assert (G : exists g, np_factor (flip dir) norm (2 ^ p) = Some g).
  { unfold np_factor in *. destruct (String.eqb norm "ortho"); eauto. destruct (String.eqb norm "backward"); eauto. destruct (String.eqb norm "forward"); eauto. }
  destruct G as [g Hg]. rewrite (C65_fft raw' (flip dir) z p t None norm g), Ez by auto. f_equal.
  rewrite DFT_list_scale, DFT_list_inv, np_values_length. rewrite !map_map. rewrite <- (map_id (np_values x (2 ^ p) s)) at 2. apply map_ext. intros v.
  pose proof (factor_inverse dir norm (2 ^ p) f g P Hf Hg) as I. set (N := INR (2 ^ p)) in *. apply C_eq; cbn.
  - transitivity (f * g * N * fst v)%R; [ring|rewrite I; ring].
  - transitivity (f * g * N * snd v)%R; [ring|rewrite I; ring].
Qed.

(** norm="ortho" keeps the energy. *)
Theorem C65_ortho_energy : forall raw dir x p s, vector x (2 ^ p) s -> whole_stride x s -> nd_writeable x = true ->
  complex_dtype (nd_dtype x) -> 0 < p <= 27 ->
  exists y, py_fft raw dir x None "ortho" = Ok y /\
    Rsum (2 ^ p) (fun k => Cnorm2 (nth k y C0)) = Rsum (2 ^ p) (fun i => Cnorm2 (nth i (np_values x (2 ^ p) s) C0)).
Proof.
  intros raw dir x p s V Ws W Hd Hp. eexists. split; [apply (C65_fft raw dir x p s None "ortho" (/ sqrt (INR (2 ^ p)))); auto|].
  assert (P : (0 < INR (2 ^ p))%R) by (apply lt_0_INR; pose proof (Nat.pow_nonzero 2 p); lia).
  set (X := np_values x (2 ^ p) s). assert (LX : List.length X = 2 ^ p) by apply np_values_length.
  pose proof (DFT_list_parseval dir X) as Q. rewrite LX in Q.
  transitivity (Rsum (2 ^ p) (fun k => / INR (2 ^ p) * Cnorm2 (nth k (DFT_list dir X) C0))%R).
  - apply Rsum_ext. intros k Hk. rewrite (nth_indep _ _ (Cscale (/ sqrt (INR (2 ^ p))) C0)), map_nth by (rewrite map_length, DFT_list_length, LX; auto).
    unfold Cnorm2, Cscale. cbn [fst snd]. rewrite <- (sqrt_sqrt (INR (2 ^ p))) at 5 by lra. field. apply Rgt_not_eq, sqrt_lt_R0; auto.
  - rewrite Rsum_mul_l, Q. field. lra.
Qed.

(** Every requested size that is not a power of two in range raises; so does a norm that is
    not one of the three, an array that is not one-dimensional, and a read-only complex array. *)
Theorem C65_size_throws : forall raw dir x len s n norm size, vector x len s -> whole_stride x s -> nd_writeable x = true -> complex_dtype (nd_dtype x) ->
  size = match n with Some k => k | None => len end -> (Z.of_nat size <= 2 ^ 63)%Z -> (forall p, p <= 27 -> size <> 2 ^ p) ->
  py_fft raw dir x n norm = Throw.
Proof.
  intros raw dir x len s n norm size V Ws W Hd Es Hz Hs. unfold py_fft. destruct (norm_mode norm) as [m| |] eqn:Em; cbn [bind]; auto.
  2:{ unfold norm_mode in Em. repeat destruct (String.eqb _ _); discriminate. }
  rewrite resolve_fft_exact by auto. cbn [bind]. rewrite ensure_same by auto. destruct (as_view C x _ s V Ws W) as (v & Ev & En & El).
  apply (binding_fft_throws raw dir x v n m size); auto. rewrite En, Es. destruct n; auto.
Qed.

Theorem C65_rejected : forall raw dir x n norm,
  np_factor dir norm 1 = None \/ (nd_ndim x <> 1) \/ (complex_dtype (nd_dtype x) /\ nd_writeable x = false) ->
  py_fft raw dir x n norm = Throw.
Proof.
  intros raw dir x n norm H. unfold py_fft. destruct (norm_mode norm) as [m| |] eqn:Em; cbn [bind]; auto.
  2:{ unfold norm_mode in Em. repeat destruct (String.eqb _ _); discriminate. }
  destruct H as [H|[H|[H1 H2]]]. { apply norm_throws in H. congruence. }
  - assert (R : exists d, resolve fft_overloads [nd_dtype x] = Ok d) by (destruct (nd_dtype x); cbn; eauto). destruct R as [d ->]. cbn [bind].
    unfold binding_fft, as_mdspan. assert (E : nd_ndim (ensure cast_complex d (size_of d) x C0) = nd_ndim x).
    { unfold ensure. destruct (dtype_eqb _ _); auto. destruct (nd_ndim x =? 1) eqn:Q; auto. }
    rewrite E. apply Nat.eqb_neq in H. rewrite H. reflexivity.
  - rewrite resolve_fft_exact by auto. cbn [bind]. rewrite ensure_same by auto. unfold binding_fft, as_mdspan, as_mdspan_impl, to_mdspan_layout_stride, mutable_data, has_axis0.
    rewrite H2. destruct (nd_ndim x =? 1); auto. destruct (nd_c_style x && _); auto. destruct (nd_f_style x && _); auto. destruct (nd_ndim x =? 0); auto.
Qed.

(** A single sample (order 0) is read out of range. *)
Theorem C65_single_sample_out_of_bounds : forall raw dir x s, vector x 1 s -> whole_stride x s -> nd_writeable x = true ->
  complex_dtype (nd_dtype x) -> py_fft raw dir x None "backward" = UB.
Proof.
  intros raw dir x s V Ws W Hd. unfold py_fft. change (norm_mode "backward") with (Ok NormBackward). cbn [bind].
  rewrite resolve_fft_exact by auto. cbn [bind]. rewrite ensure_same by auto. destruct (as_view C x _ s V Ws W) as (v & Ev & En & El).
  unfold binding_fft. rewrite Ev. cbn [bind]. cbv zeta. rewrite En, El. change 1 with (2 ^ 0). rewrite next_order_pow by lia. cbn [bind]. rewrite single_bit_pow. cbn [negb].
  replace (2 ^ 63 <=? Z.of_nat (2 ^ 0))%Z with false by reflexivity. change (2 ^ 0) with 1. unfold fft_out_of_place, np_values. rewrite !tab_1.
  pose proof (fun c => fft_order0_UB c dir) as U. unfold fft_plan_run in U. destruct (make_dit2_plan 0) as [pl| |] eqn:E; [|reflexivity|].
  - cbn [bind] in *. rewrite copy_full by reflexivity. cbn [map bind]. rewrite U. reflexivity.
  - specialize (U C0). discriminate.
Qed.

(** numpy crops the input when n is smaller: here the copy leaves the result array. *)
Theorem C65_crop_refuted : forall raw dir x len s p norm f, vector x len s -> whole_stride x s -> nd_writeable x = true ->
  complex_dtype (nd_dtype x) -> 0 < p <= 27 -> 2 ^ p < len -> np_factor dir norm (2 ^ p) = Some f ->
  py_fft raw dir x (Some (2 ^ p)) norm = UB.
Proof.
  intros raw dir x len s p norm f V Ws W Hd Hp Hl Hf. unfold py_fft.
  destruct (norm_factor dir norm (2 ^ p) f ltac:(pose proof (Nat.pow_nonzero 2 p); lia) Hf) as (m & -> & Fm). cbn [bind].
  rewrite resolve_fft_exact by auto. cbn [bind]. rewrite ensure_same by auto. destruct (as_view C x _ s V Ws W) as (v & Ev & En & El).
  apply (binding_fft_UB raw dir x v _ m p); auto. lia.
Qed.

(** numpy pads with zeros when n is larger: here the tail is whatever the memory contained,
    so the result is not a function of the arguments. *)
Theorem C65_pad : forall raw dir x len s p norm f, vector x len s -> whole_stride x s -> nd_writeable x = true ->
  complex_dtype (nd_dtype x) -> 0 < p <= 27 -> len < 2 ^ p -> np_factor dir norm (2 ^ p) = Some f ->
  py_fft raw dir x (Some (2 ^ p)) norm =
    Ok (map (Cscale f) (DFT_list dir (tab (2 ^ p) (fun i => if i <? len then nth i (np_values x len s) C0 else raw i)))).
Proof.
  intros raw dir x len s p norm f V Ws W Hd Hp Hl Hf. unfold py_fft.
  destruct (norm_factor dir norm (2 ^ p) f ltac:(pose proof (Nat.pow_nonzero 2 p); lia) Hf) as (m & -> & Fm). cbn [bind].
  rewrite resolve_fft_exact by auto. cbn [bind]. rewrite ensure_same by auto. destruct (as_view C x _ s V Ws W) as (v & Ev & En & El).
  rewrite (binding_fft_ok raw dir x v (np_values x len s) _ m p) by (auto; rewrite np_values_length; lia).
  rewrite Fm, np_values_length. do 3 f_equal. apply (nth_ext _ _ C0 C0). { rewrite app_length, skipn_length, np_values_length, !tab_length. lia. }
  intros i Hi. rewrite app_length, skipn_length, np_values_length, !tab_length in Hi. rewrite (nth_tab _ (2 ^ p)) by lia. destruct (Nat.ltb_spec i len) as [Q|Q].
  - rewrite app_nth1 by (rewrite np_values_length; auto). reflexivity.
  - rewrite app_nth2 by (rewrite np_values_length; auto). rewrite np_values_length, nth_skipn_add.
    replace (len + (i - len)) with i by lia. apply nth_tab. lia.
Qed.

Theorem C65_pad_refuted : forall dir x len s p norm f, vector x len s -> whole_stride x s -> nd_writeable x = true ->
  complex_dtype (nd_dtype x) -> 0 < p <= 27 -> len < 2 ^ p -> np_factor dir norm (2 ^ p) = Some f ->
  py_fft (fun _ => C1) dir x (Some (2 ^ p)) norm <> py_fft (fun _ => C0) dir x (Some (2 ^ p)) norm.
Proof.
  intros dir x len s p norm f V Ws W Hd Hp Hl Hf E. rewrite !(C65_pad _ dir x len s p norm f) in E by auto. injection E as E.
  assert (P : 0 < 2 ^ p) by lia. assert (F0 : (f <> 0)%R).
  { pose proof (factor_inverse dir norm (2 ^ p) f) as I. intros ->.
    assert (G : exists g, np_factor (flip dir) norm (2 ^ p) = Some g).
    { unfold np_factor in *. destruct (String.eqb norm "ortho"); eauto. destruct (String.eqb norm "backward"); eauto. destruct (String.eqb norm "forward"); eauto. }
    destruct G as [g Hg]. specialize (I g P Hf Hg). lra. }
  apply (f_equal (fun l => nth 0 l (Cscale f C0))) in E. rewrite !map_nth in E.
  rewrite !DFT_head_sum, !tab_length in E by (rewrite tab_length; auto).
  assert (D : forall c, Csum (2 ^ p) (fun j => nth j (tab (2 ^ p) (fun i => if i <? len then nth i (np_values x len s) C0 else c)) C0) =
    (Csum len (fun j => nth j (np_values x len s) C0) + RtoC (INR (2 ^ p - len)) * c)%C).
  { intros c. replace (2 ^ p) with (len + (2 ^ p - len)) at 1 by lia. rewrite Csum_split. f_equal.
    - apply Csum_ext. intros j Hj. rewrite nth_tab by lia. destruct (Nat.ltb_spec j len); [reflexivity|lia].
    - transitivity (Csum (2 ^ p - len) (fun _ => c)).
      + apply Csum_ext. intros j Hj. rewrite nth_tab by lia. destruct (Nat.ltb_spec (len + j) len); [lia|reflexivity].
      + apply Csum_const. }
  rewrite !D in E. apply (f_equal fst) in E. cbn in E. apply Rmult_eq_reg_l in E; auto.
  assert (0 < INR (2 ^ p - len))%R by (apply lt_0_INR; lia). lra.
Qed.

(** An array whose byte stride is not a multiple of the element size (a field of a
    structured array): the wrong elements are read.  16-byte elements, 24 bytes apart. *)
Theorem C65_field_refuted : forall raw, exists x, vector x 2 24 /\ nd_writeable x = true /\ nd_dtype x = Complex128 /\ ~ whole_stride x 24 /\
  np_values x 2 24 = [C1; C0] /\ py_fft raw Forward x None "backward" <> Ok (map (Cscale 1) (DFT_list Forward (np_values x 2 24))).
Proof.
  intros raw. pose (mem := fun p : Z => if (p =? 1024)%Z then C1 else if (p =? 1048)%Z then C0 else Ci).
  exists (NdArray Complex128 mem 1024 16 [2] [24%Z] true false false). split; [|split; [|split; [|split; [|split]]]]; auto.
  - unfold vector. cbn [nd_shape nd_strides nd_itemsize nd_data]. split; [reflexivity|]. split; [reflexivity|]. split; [lia|]. intros i Hi. lia.
  - unfold whole_stride. cbn [nd_itemsize]. intros [q Hq]. lia.
  - unfold py_fft. change (norm_mode "backward") with (Ok NormBackward). cbn [bind]. rewrite resolve_fft_exact by auto. cbn [bind]. rewrite ensure_same by auto.
    set (x := NdArray _ _ _ _ _ _ _ _ _).
    rewrite (binding_fft_ok raw Forward x (View mem 1024 16 2 1) [C1; Ci] None NormBackward 1); [|reflexivity|reflexivity|reflexivity|lia|apply le_n].
    cbn [factor]. rewrite skipn_all2, app_nil_r by (rewrite tab_length; apply le_n). intros E.
    apply (f_equal (fun o => match o with Ok l => nth 0 l (Cscale 1 C0) | _ => C0 end)) in E. cbv beta iota in E. rewrite !map_nth, !DFT_head_sum in E by (cbn; lia).
    apply (f_equal snd) in E. cbn in E. lra.
Qed.

(** ** convolve *)

(** Two real arrays of the same type and any layout: the linear convolution, by the direct
    method (the default, and any unknown method) and by FFT. *)
Theorem C65_convolve : forall raw x h n m s t method, vector x n s -> vector h m t -> whole_stride x s -> whole_stride h t ->
  nd_writeable x = true -> nd_writeable h = true -> real_dtype (nd_dtype x) -> nd_dtype h = nd_dtype x -> 0 < n + m ->
  (method = "fft"%string -> 0 < n /\ 0 < m /\ 2 <= n + m - 1 <= 2 ^ max_order) ->
  py_convolve raw x h "full" method = Ok (tab (n + m - 1) (lconv (np_values x n s) (np_values h m t))).
Proof.
  intros raw x h n m s t method Vx Vh Sx Sh Wx Wh D Eh Hn Hf. apply convolve_same; auto.
Qed.

(** Mixed types, and all other types, are converted to float32 first. *)
Definition as_single (x : ndarray R) (vs : list R) : list R := if dtype_eqb (nd_dtype x) Float32 then vs else map rnd32 vs.

Theorem C65_convolve_converted : forall raw x h n m s t method, vector x n s -> vector h m t -> whole_stride x s -> whole_stride h t ->
  nd_writeable x = true -> nd_writeable h = true -> ~ (nd_dtype x = Float64 /\ nd_dtype h = Float64) -> 0 < n + m ->
  (Z.of_nat (n + m) < 2 ^ 60)%Z ->
  (method = "fft"%string -> 0 < n /\ 0 < m /\ 2 <= n + m - 1 <= 2 ^ max_order) ->
  py_convolve raw x h "full" method =
    Ok (tab (n + m - 1) (lconv (as_single x (np_values x n s)) (as_single h (np_values h m t)))).
Proof.
  intros raw x h n m s t method Vx Vh Sx Sh Wx Wh D Hn Hz Hf. apply convolve_single; auto.
Qed.

(** Modes other than full, and operands that are both empty, raise; so do a first operand
    that is not one-dimensional and read-only arrays. *)
Theorem C65_convolve_rejected : forall raw x h mode method, mode <> "full"%string \/ nd_ndim x <> 1 \/
  (nd_dtype x = nd_dtype h /\ real_dtype (nd_dtype x) /\ (nd_writeable x = false \/ nd_writeable h = false)) \/
  (exists s t, vector x 0 s /\ vector h 0 t /\ nd_dtype x = nd_dtype h /\ real_dtype (nd_dtype x)) ->
  py_convolve raw x h mode method = Throw.
Proof. exact convolve_rejected. Qed.

(** The documentation asks for one-dimensional arrays; a two-dimensional second operand is
    accepted and only its first column is used. *)
Theorem C65_matrix_operand_refuted : forall raw x h n s rows cols t u, vector x n s -> whole_stride x s -> nd_writeable x = true ->
  nd_shape h = [rows; cols] -> nd_strides h = [t; u] -> (0 < nd_itemsize h)%Z -> whole_stride h t -> nd_writeable h = true ->
  (forall i, i < rows -> (0 <= nd_data h + Z.of_nat i * t < 2 ^ 64)%Z) ->
  real_dtype (nd_dtype x) -> nd_dtype h = nd_dtype x -> 0 < n + rows ->
  py_convolve raw x h "full" "auto" = Ok (tab (n + rows - 1) (lconv (np_values x n s) (np_values h rows t))).
Proof. exact convolve_matrix. Qed.

(** One empty operand: zeros by the direct method, uninitialised memory by FFT; two single
    samples by FFT are out of range. *)
Theorem C65_empty_operand_refuted : forall raw x h n m s t, vector x n s -> vector h m t -> whole_stride x s -> whole_stride h t ->
  nd_writeable x = true -> nd_writeable h = true -> real_dtype (nd_dtype x) -> nd_dtype h = nd_dtype x -> 0 < n + m -> n = 0 \/ m = 0 ->
  py_convolve raw x h "full" "direct" = Ok (tab (n + m - 1) (fun _ => 0%R)) /\
  py_convolve raw x h "full" "fft" = Ok (tab (n + m - 1) raw).
Proof. exact convolve_empty. Qed.

Theorem C65_single_samples_out_of_bounds : forall raw x h s t, vector x 1 s -> vector h 1 t -> whole_stride x s -> whole_stride h t ->
  nd_writeable x = true -> nd_writeable h = true -> real_dtype (nd_dtype x) -> nd_dtype h = nd_dtype x ->
  py_convolve raw x h "full" "fft" = UB.
Proof. exact convolve_1x1. Qed.

(** Arrays of doubles lose precision on the way in: two different real arrays have the same
    transform, and mixing float32 and float64 in convolve computes in float32. *)
Theorem C65_double_input_refuted : forall raw, exists x y, vector x 2 8 /\ vector y 2 8 /\ nd_dtype x = Float64 /\ nd_dtype y = Float64 /\
  np_values x 2 8 = [RtoC (1 + / 2 ^ 30); C0] /\ np_values y 2 8 = [C1; C0] /\
  py_fft raw Forward x None "backward" = py_fft raw Forward y None "backward".
Proof.
  intros raw. pose (mem v := fun p : Z => if (p =? 1024)%Z then v else C0).
  assert (V : forall v, vector (NdArray Float64 (mem v) 1024 8 [2] [8%Z] true true true) (2 ^ 1) 8).
  { intros v. unfold vector. cbn [nd_shape nd_strides nd_itemsize nd_data]. split; [reflexivity|]. split; [reflexivity|]. split; [lia|].
    intros i Hi. change (2 ^ 1) with 2 in Hi. lia. }
  exists (NdArray Float64 (mem (RtoC (1 + / 2 ^ 30))) 1024 8 [2] [8%Z] true true true), (NdArray Float64 (mem C1) 1024 8 [2] [8%Z] true true true).
  split; [apply V|]. split; [apply V|]. split; [reflexivity|]. split; [reflexivity|]. split; [reflexivity|]. split; [reflexivity|].
  assert (N : ~ complex_dtype Float64) by (intros [|]; discriminate).
  rewrite !(C65_fft_converted raw Forward _ 1 8 None "backward" 1) by (auto; lia).
  do 3 f_equal. pose proof rnd32_1_eps as He. remember (1 + / 2 ^ 30)%R as e eqn:Ee. clear Ee.
  unfold np_values. change (2 ^ 1) with 2. cbn. rewrite He, rnd32_1. reflexivity.
Qed.

(** rfftfreq: numpy returns n/2 + 1 frequencies, this one n; the values are i / (n d). *)
Theorem C65_rfftfreq : forall raw n d, 0 < n -> (Z.of_nat n < 2 ^ 31)%Z -> (0 < d)%R ->
  exists y, py_rfftfreq raw n d = Ok y /\ List.length y = n /\ forall i, i < n -> nth i y 0%R = (INR i / (INR n * d))%R.
Proof.
  intros raw n d Hn Hz Hd. unfold py_rfftfreq. replace (2 ^ 63 <=? Z.of_nat n)%Z with false by (symmetry; apply Z.leb_gt; lia).
  destruct (C52_rfftfreq_vector (tab n raw) d) as (y & E & L & F); rewrite ?tab_length in *; eauto.
Qed.

Theorem C65_rfftfreq_length_refuted : forall raw n d y, 2 < n -> (Z.of_nat n < 2 ^ 31)%Z -> (0 < d)%R ->
  py_rfftfreq raw n d = Ok y -> List.length y <> n / 2 + 1.
Proof.
  intros raw n d y Hn Hz Hd E. destruct (C65_rfftfreq raw n d ltac:(lia) Hz Hd) as (y' & E' & L & _). rewrite E in E'. injection E' as <-. rewrite L.
  pose proof (Nat.div_lt_upper_bound n 2 (n - 1)). lia.
Qed.

(** A reversed view (negative stride) of four complex128 numbers meets the hypotheses. *)
Definition reversed : ndarray C := NdArray Complex128 (fun p => RtoC (IZR (p / 16))) 4144 16 [4] [(-16)%Z] true false false.

Example C65_hypotheses : vector reversed (2 ^ 2) (-16) /\ whole_stride reversed (-16) /\ nd_writeable reversed = true /\
  complex_dtype (nd_dtype reversed) /\ np_values reversed 4 (-16) = [RtoC 259; RtoC 258; RtoC 257; RtoC 256] /\
  np_factor Forward "ortho" 4 = Some (/ sqrt (INR 4))%R.
Proof.
  split; [|split; [|split; [|split; [|split]]]]; auto.
  - unfold vector. cbn [reversed nd_shape nd_strides nd_itemsize nd_data]. split; [reflexivity|]. split; [reflexivity|]. split; [lia|].
    intros i Hi. change (2 ^ 2)%nat with 4 in Hi. lia.
  - exists (-1)%Z. reflexivity.
  - right. reflexivity.
Qed.

(** Two float arrays, the second every other sample of a longer one, for convolve. *)
Definition ramp : ndarray R := NdArray Float32 (fun p => IZR (p / 4)) 0 4 [3] [4%Z] true true true.
Definition every_other : ndarray R := NdArray Float32 (fun p => IZR (p / 4)) 40 4 [2] [8%Z] true false false.
Definition table : ndarray R := NdArray Float32 (fun p => IZR (p / 4)) 40 4 [2; 5] [20%Z; 4%Z] true true false.

Example C65_convolve_hypotheses : vector ramp 3 4 /\ vector every_other 2 8 /\ whole_stride ramp 4 /\ whole_stride every_other 8 /\
  real_dtype (nd_dtype ramp) /\ nd_dtype every_other = nd_dtype ramp /\ nd_dtype table = nd_dtype ramp /\
  2 <= 3 + 2 - 1 <= 2 ^ max_order /\
  (forall raw method, py_convolve raw ramp every_other "full" method = Ok [0; 10; 32; 24]%R) /\
  (forall raw, py_convolve raw ramp table "full" "auto" = Ok [0; 10; 35; 30]%R).
Proof.
  assert (V1 : vector ramp 3 4). { unfold vector. cbn [ramp nd_shape nd_strides nd_itemsize nd_data]. repeat split; try lia. }
  assert (V2 : vector every_other 2 8). { unfold vector. cbn [every_other nd_shape nd_strides nd_itemsize nd_data]. repeat split; try lia. }
  assert (W1 : whole_stride ramp 4) by (exists 1%Z; reflexivity).
  assert (W2 : whole_stride every_other 8) by (exists 2%Z; reflexivity).
  assert (Rd : real_dtype (nd_dtype ramp)) by (left; reflexivity).
  assert (B : 2 <= 3 + 2 - 1 <= 2 ^ max_order).
  { split; [lia|]. change (3 + 2 - 1) with (2 ^ 2). apply Nat.pow_le_mono_r; [lia|]. unfold max_order. lia. }
  repeat (split; [assumption || reflexivity|]). split.
  - intros raw method. rewrite (C65_convolve raw ramp every_other 3 2 4 8 method) by (auto; lia).
    f_equal. unfold np_values. cbn. unfold lconv. cbn. repeat (f_equal; try lra).
  - intros raw. rewrite (C65_matrix_operand_refuted raw ramp table 3 4 2 5 20 4); auto; try reflexivity; try lia.
    + f_equal. unfold np_values. cbn. unfold lconv. cbn. repeat (f_equal; try lra).
    + exists 5%Z. reflexivity.
    + intros i Hi. cbn [table nd_data]. lia.
Qed.

Print Assumptions C65_fft.
Print Assumptions C65_fft_converted.
Print Assumptions C65_round_trip.
Print Assumptions C65_ortho_energy.
Print Assumptions C65_size_throws.
Print Assumptions C65_rejected.
Print Assumptions C65_single_sample_out_of_bounds.
Print Assumptions C65_crop_refuted.
Print Assumptions C65_pad.
Print Assumptions C65_pad_refuted.
Print Assumptions C65_field_refuted.
Print Assumptions C65_convolve.
Print Assumptions C65_convolve_converted.
Print Assumptions C65_convolve_rejected.
Print Assumptions C65_matrix_operand_refuted.
Print Assumptions C65_empty_operand_refuted.
Print Assumptions C65_single_samples_out_of_bounds.
Print Assumptions C65_double_input_refuted.
Print Assumptions C65_rfftfreq.
Print Assumptions C65_rfftfreq_length_refuted.
