(** Property theorems C19-C22, C29-C32, C34: reordering and complex FFT plans.
    Specifications: Spec/Dft.v (DFT sum), Spec/DigitRev.v, Spec/Twisted.v. *)
From Coq Require Import Reals List Lia Lra Arith.
From Verif Require Import Base.Outcome Base.OutcomeFacts Base.Sums Base.Cplx.
From Verif Require Import Spec.Dft Spec.DigitRev Spec.Twisted.
From Verif Require Import Model.Fft2 Model.FftRadix Model.Stockham.
From Verif Require Import Proof.BitrevProof Proof.RadixProof Proof.StockhamProof Proof.FftCorollaries.
Import ListNotations.
Local Open Scope nat_scope.

(** C19: all versions of the bit-reversal reordering put at position i the element
    whose index is i with its p bits reversed; applying it twice gives the input back. *)
Theorem C19_bit_reversal : forall T (d : T * T) p (x : list (T * T)), length x = 2 ^ p ->
  exists table, bitrevorder_plan p = Ok table /\
  let y := tab (2 ^ p) (fun i => nth (digit_rev 2 p i) x d) in
    bitrev_apply table x = Ok y /\ bitrev_apply table y = Ok x /\
    bitrevorder x = Ok y /\
    bitrev_apply_interleaved table (interleave x) = Ok (interleave y) /\
    bitrevorder_interleaved (interleave x) = Ok (interleave y) /\
    bitrev_apply_split table (map fst x, map snd x) = Ok (map fst y, map snd y).
Proof. exact bitrev_all_versions. Qed.

Theorem C19_bit_reversal_scalar : forall T (d : T) p (x : list T), length x = 2 ^ p ->
  exists table, bitrevorder_plan p = Ok table /\
    bitrev_apply table x = Ok (tab (2 ^ p) (fun i => nth (digit_rev 2 p i) x d)).
Proof. exact bitrev_plan_ok. Qed.

Example C19_example : bitrevorder [10;11;12;13;14;15;16;17] = Ok [10;14;12;16;11;15;13;17].
Proof. reflexivity. Qed.

(** C20: the default plan, built once and run any number of times on any vectors. *)
Theorem C20_fft_is_dft : forall p, 0 < p <= 27 ->
  exists pl, make_dit2_plan p = Ok pl /\
    forall d x, length x = 2 ^ p -> run_dit2_plan c2c_dit2_v3 pl x d = Ok (DFT_list d x).
Proof. exact fft_plan_object. Qed.

Theorem C20_order_too_large_throws : forall p x d, 27 < p -> fft_plan_run p x d = Throw.
Proof. exact fft_plan_throws. Qed.

Theorem C20_order_zero_out_of_range : forall c d, fft_plan_run 0 [c] d = UB.
Proof. exact fft_order0_UB. Qed.

Example C20_example : exists y,
  fft_plan_run 2 [RtoC 1; RtoC 2; RtoC 3; RtoC 4] Forward = Ok y /\ nth 0 y C0 = RtoC 10.
Proof.
  eexists. split. { apply Fft2Proof.fft_plan_run_ok; [unfold max_order; lia|reflexivity]. }
  rewrite nth_DFT_list by (simpl; lia). unfold DFT, Csum. cbn [bsum length nth].
  rewrite !Nat.mul_0_r, DftTheory.W_0. apply C_eq; simpl; ring.
Qed.

(** C21. *)
Theorem C21_round_trip : forall p d x, 0 < p <= 27 -> length x = 2 ^ p ->
  exists y, fft_plan_run p x d = Ok y /\
    fft_plan_run p y (flip d) = Ok (map (fun c => (RtoC (INR (2 ^ p)) * c)%C) x).
Proof. exact fft_roundtrip. Qed.

Theorem C21_linear : forall p d a b x y, 0 < p <= 27 -> length x = 2 ^ p -> length y = 2 ^ p ->
  exists X Y, fft_plan_run p x d = Ok X /\ fft_plan_run p y d = Ok Y /\
    fft_plan_run p (tab (2 ^ p) (fun i => (a * nth i x C0 + b * nth i y C0)%C)) d =
    Ok (tab (2 ^ p) (fun k => (a * nth k X C0 + b * nth k Y C0)%C)).
Proof. exact fft_linear. Qed.

Theorem C21_parseval : forall p d x, 0 < p <= 27 -> length x = 2 ^ p ->
  exists X, fft_plan_run p x d = Ok X /\
    Rsum (2 ^ p) (fun k => Cnorm2 (nth k X C0)) =
    (INR (2 ^ p) * Rsum (2 ^ p) (fun i => Cnorm2 (nth i x C0)))%R.
Proof. exact fft_parseval. Qed.

Theorem C21_convolution_theorem : forall p d x y, 0 < p <= 27 -> length x = 2 ^ p -> length y = 2 ^ p ->
  exists X Y, fft_plan_run p x d = Ok X /\ fft_plan_run p y d = Ok Y /\
    fft_plan_run p (tab (2 ^ p) (cconv (2 ^ p) (fun i => nth i x C0) (fun i => nth i y C0))) d =
    Ok (tab (2 ^ p) (fun k => (nth k X C0 * nth k Y C0)%C)).
Proof. exact fft_convolution. Qed.

Example C21_example : exists y,
  fft_plan_run 1 [RtoC 3; RtoC 5] Forward = Ok y /\
  fft_plan_run 1 y Backward = Ok [(RtoC (INR 2) * RtoC 3)%C; (RtoC (INR 2) * RtoC 5)%C].
Proof.
  destruct (fft_roundtrip 1 Forward [RtoC 3; RtoC 5]) as [y [A B]]; [lia|reflexivity|].
  exists y. split; [exact A|exact B].
Qed.

(** C22: the four kernels on arbitrary (also not bit-reversed) data and inside a plan. *)
Theorem C22_kernels_agree : forall p d (x : list C), 0 < p -> length x = 2 ^ p ->
  exists w y, make_twiddle_lut_radix2 (2 ^ p) d = Ok w /\
    c2c_dit2_v1 x w = Ok y /\ c2c_dit2_v2 x w = Ok y /\ c2c_dit2_v3 x w = Ok y /\
    (1 < p -> c2c_dit2_v4 x w = Ok y).
Proof. exact kernels_raw. Qed.

Theorem C22_plans_agree : forall p d x, 0 < p <= 27 -> length x = 2 ^ p ->
  exists pl y, make_dit2_plan p = Ok pl /\ y = DFT_list d x /\
    run_dit2_plan c2c_dit2_v1 pl x d = Ok y /\ run_dit2_plan c2c_dit2_v2 pl x d = Ok y /\
    run_dit2_plan c2c_dit2_v3 pl x d = Ok y /\ (1 < p -> run_dit2_plan c2c_dit2_v4 pl x d = Ok y).
Proof. exact kernels_agree. Qed.

Theorem C22_v4_order1_differs : forall d (a b : C), exists w,
  make_twiddle_lut_radix2 2 d = Ok w /\
  c2c_dit2_v3 [a; b] w = Ok [(a + b)%C; (a - b)%C] /\
  c2c_dit2_v4 [a; b] w = Ok [((a + b) + (a - b))%C; ((a + b) - (a - b))%C].
Proof. exact v4_order1. Qed.

Example C22_example : exists w y, make_twiddle_lut_radix2 (2 ^ 2) Forward = Ok w /\
  c2c_dit2_v1 [C1; C1; C0; C0] w = Ok y /\ c2c_dit2_v4 [C1; C1; C0; C0] w = Ok y.
Proof.
  destruct (kernels_raw 2 Forward [C1; C1; C0; C0]) as [w [y [A [B [_ [_ D]]]]]]; [lia|reflexivity|].
  exists w, y. auto.
Qed.

(** C29. *)
Theorem C29_dif3_is_dft : forall d p x, p <= 18 -> length x = 3 ^ p ->
  c2c_dif3_plan p x d = Ok (DFT_list d x).
Proof. exact dif3_plan_ok. Qed.

Theorem C29_dif5_is_dft : forall d p x, p <= 12 -> length x = 5 ^ p ->
  c2c_dif5_plan p x d = Ok (DFT_list d x).
Proof. exact dif5_plan_ok. Qed.

Example C29_example : exists y, c2c_dif3_plan 1 [RtoC 1; RtoC 2; RtoC 4] Backward = Ok y /\ nth 0 y C0 = RtoC 7.
Proof.
  eexists. split. { apply dif3_plan_ok; [lia|reflexivity]. }
  rewrite nth_DFT_list by (simpl; lia). unfold DFT, Csum. cbn [bsum length nth].
  rewrite !Nat.mul_0_r, DftTheory.W_0. apply C_eq; simpl; ring.
Qed.

(** C30. *)
Theorem C30_stockham_dif3 : forall d p x, length x = 3 ^ p -> c2c_stockham_dif3_plan p x d = Ok (DFT_list d x).
Proof. exact stockham_dif3_ok. Qed.
Theorem C30_stockham_dif4 : forall d p x, length x = 4 ^ p -> c2c_stockham_dif4_plan p x d = Ok (DFT_list d x).
Proof. exact stockham_dif4_ok. Qed.
Theorem C30_stockham_dif5 : forall d p x, length x = 5 ^ p -> c2c_stockham_dif5_plan p x d = Ok (DFT_list d x).
Proof. exact stockham_dif5_ok. Qed.
Theorem C30_stockham_dif8 : forall d p x, length x = 8 ^ p -> c2c_stockham_dif8_plan p x d = Ok (DFT_list d x).
Proof. exact stockham_dif8_ok. Qed.

Example C30_example : exists y, c2c_stockham_dif4_plan 1 [RtoC 1; RtoC 2; RtoC 3; RtoC 5] Forward = Ok y /\
  nth 0 y C0 = RtoC 11.
Proof.
  eexists. split. { apply stockham_dif4_ok; reflexivity. }
  rewrite nth_DFT_list by (simpl; lia). unfold DFT, Csum. cbn [bsum length nth].
  rewrite !Nat.mul_0_r, DftTheory.W_0. apply C_eq; simpl; ring.
Qed.

(** C31: [work] is the plan's scratch buffer, with whatever an earlier call left in it. *)
Theorem C31_stockham2_runs_the_opposite_direction : forall d p work x,
  length x = 2 ^ p -> length work = 2 ^ p ->
  c2c_stockham_dif2r_plan p work x d = Ok (DFT_list (flip d) x) /\
  c2c_stockham_dif2i_plan p work x d = Ok (DFT_list (flip d) x).
Proof. exact stockham2_dir. Qed.

Theorem C31_stockham2_is_dft_refuted : forall d p, 1 < p ->
  exists x, length x = 2 ^ p /\ forall work, length work = 2 ^ p ->
  (forall y, c2c_stockham_dif2r_plan p work x d = Ok y -> y <> DFT_list d x) /\
  (forall y, c2c_stockham_dif2i_plan p work x d = Ok y -> y <> DFT_list d x).
Proof. exact stockham2_wrong. Qed.

Theorem C31_stockham2_round_trip : forall d p w1 w2 x,
  length x = 2 ^ p -> length w1 = 2 ^ p -> length w2 = 2 ^ p ->
  exists y, c2c_stockham_dif2r_plan p w1 x d = Ok y /\ c2c_stockham_dif2i_plan p w1 x d = Ok y /\
  let z := map (fun c => (RtoC (INR (2 ^ p)) * c)%C) x in
  c2c_stockham_dif2r_plan p w2 y (flip d) = Ok z /\ c2c_stockham_dif2i_plan p w2 y (flip d) = Ok z.
Proof. exact stockham2_roundtrip. Qed.

Example C31_example : exists y,
  c2c_stockham_dif2r_plan 2 (repeat C0 4) [C1; RtoC 2; C0; C0] Forward = Ok y /\
  y = DFT_list Backward [C1; RtoC 2; C0; C0].
Proof. eexists. split; [|reflexivity]. apply stockham2_dir; reflexivity. Qed.

(** C32: what the radix-4 plans compute (Spec/Twisted.v), that it is not the DFT at any
    order, and that the round trip still is size times the identity. *)
Theorem C32_radix4_computes_twisted_dft : forall d p x, 0 < p -> length x = 4 ^ p ->
  let y := tab (4 ^ p) (TDFT d p (fun i => nth i x C0)) in
  c2c_dit4_plan p x d = Ok y /\ c2c_dif4_plan p x d = Ok y /\ c2c_stockham_dit4_plan p x d = Ok y.
Proof. exact radix4_plans. Qed.

Theorem C32_radix4_is_dft_refuted : forall d p, 0 < p -> exists x y, length x = 4 ^ p /\
  c2c_dit4_plan p x d = Ok y /\ c2c_dif4_plan p x d = Ok y /\ c2c_stockham_dit4_plan p x d = Ok y /\
  y <> DFT_list d x.
Proof. exact radix4_not_dft. Qed.

Theorem C32_radix4_round_trip : forall d p x, 0 < p -> length x = 4 ^ p ->
  exists y, c2c_dit4_plan p x d = Ok y /\ c2c_dif4_plan p x d = Ok y /\ c2c_stockham_dit4_plan p x d = Ok y /\
  let z := map (fun c => (RtoC (INR (4 ^ p)) * c)%C) x in
  c2c_dit4_plan p y (flip d) = Ok z /\ c2c_dif4_plan p y (flip d) = Ok z /\
  c2c_stockham_dit4_plan p y (flip d) = Ok z.
Proof. exact radix4_roundtrip. Qed.

Example C32_example : exists y, c2c_dit4_plan 1 [C0; C1; C0; C0] Forward = Ok y /\ length y = 4.
Proof.
  eexists. split. { apply (radix4_plans Forward 1); [lia|reflexivity]. } reflexivity.
Qed.

(** C34. *)
Theorem C34_digit_reversal : forall T (d : T) r p (x : list T), 1 < r -> length x = r ^ p ->
  exists lut, digitrev_make r (r ^ p) = Ok lut /\
  let y := tab (r ^ p) (fun i => nth (digit_rev r p i) x d) in
    digitrev_apply lut x = Ok y /\ digitrev_apply lut y = Ok x.
Proof. exact digitrev_involution. Qed.

Example C34_example : (lut <- digitrev_make 3 9 ;; digitrev_apply lut [0;1;2;3;4;5;6;7;8]) = Ok [0;3;6;1;4;7;2;5;8].
Proof. reflexivity. Qed.

Print Assumptions C19_bit_reversal.
Print Assumptions C19_bit_reversal_scalar.
Print Assumptions C20_fft_is_dft.
Print Assumptions C20_order_too_large_throws.
Print Assumptions C20_order_zero_out_of_range.
Print Assumptions C21_round_trip.
Print Assumptions C21_linear.
Print Assumptions C21_parseval.
Print Assumptions C21_convolution_theorem.
Print Assumptions C22_kernels_agree.
Print Assumptions C22_plans_agree.
Print Assumptions C22_v4_order1_differs.
Print Assumptions C29_dif3_is_dft.
Print Assumptions C29_dif5_is_dft.
Print Assumptions C30_stockham_dif3.
Print Assumptions C30_stockham_dif4.
Print Assumptions C30_stockham_dif5.
Print Assumptions C30_stockham_dif8.
Print Assumptions C31_stockham2_runs_the_opposite_direction.
Print Assumptions C31_stockham2_is_dft_refuted.
Print Assumptions C31_stockham2_round_trip.
Print Assumptions C32_radix4_computes_twisted_dft.
Print Assumptions C32_radix4_is_dft_refuted.
Print Assumptions C32_radix4_round_trip.
Print Assumptions C34_digit_reversal.
