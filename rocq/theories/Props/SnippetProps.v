(** C82 — the example transforms in extra/snippet. *)
From Coq Require Import List Arith Bool Reals Lra Lia.
From Verif Require Import Base.Outcome Base.OutcomeFacts Base.Sums Base.Cplx Spec.Dft Spec.Transforms.
From Verif Require Import Proof.DftTheory Model.Snippets Proof.RadixProof Proof.SplitRadixProof Proof.SnippetsProof.
From Verif Require Import Spec.Twisted Proof.Radix4Proof Proof.FftCorollaries Proof.SnippetDit4Proof.
Import ListNotations.
Local Arguments Nat.pow : simpl never.

(** The split-radix plan of any power-of-two size, run forward, writes the forward DFT
    of its input, whatever the output array held before. *)
Theorem C82_split_radix_forward : forall p (inp out : list C), length inp = 2 ^ p -> length out = 2 ^ p ->
  split_radix_fft (2 ^ p) inp out Forward = Ok (DFT_list Forward inp).
Proof. exact split_radix_forward. Qed.

(** Run backward it is wrong for every size from 4 on: for a single 1 at position 1 the
    element n/4 of the result is -i, that of the backward DFT is +i. *)
Theorem C82_split_radix_backward_refuted : forall p (out : list C), 2 <= p -> length out = 2 ^ p ->
  exists inp res, length inp = 2 ^ p /\ split_radix_fft (2 ^ p) inp out Backward = Ok res /\
    nth (2 ^ p / 4) res C0 = (- Ci)%C /\ nth (2 ^ p / 4) (DFT_list Backward inp) C0 = Ci.
Proof.
  intros p out Hp Lo. destruct p as [|[|q]]; try lia.
  assert (HM := pow2_pos q).
  assert (E4 : 2 ^ S (S q) / 4 = 2 ^ q).
  { rewrite pow2_SS. symmetry. apply Nat.div_unique with 0; lia. }
  set (inp := tab (2 ^ S (S q)) (fun j => if j =? 1 then C1 else C0)).
  assert (Li : length inp = 2 ^ S (S q)) by apply tab_length.
  exists inp. eexists. split; [exact Li|]. split; [apply split_radix_SR; auto|].
  rewrite E4. split.
  - rewrite nth_tab by (rewrite pow2_SS; lia).
    rewrite <- (SR_impulse1 Backward q). apply SR_ext. intros j.
    destruct (Nat.lt_ge_cases j (2 ^ S (S q))).
    + unfold inp. rewrite nth_tab by auto. auto.
    + rewrite nth_overflow by lia. destruct (Nat.eqb_spec j 1); auto. rewrite pow2_SS in *. lia.
  - unfold DFT_list. rewrite Li, nth_tab by (rewrite pow2_SS; lia). unfold DFT.
    rewrite (Csum_single _ 1).
    + unfold inp. rewrite nth_tab by (rewrite pow2_SS; lia). cbn [Nat.eqb].
      rewrite Nat.mul_1_l, pow2_SS, W_quarter by auto. unfold Cid. cbn [dsign]. change (0%R, 1%R) with Ci. ring.
    + rewrite pow2_SS; lia.
    + intros i Hi Hne. unfold inp. rewrite nth_tab by auto. destruct (Nat.eqb_spec i 1); [lia|]. ring.
Qed.

(** Sizes 1 and 2 are right in both directions. *)
Theorem C82_split_radix_backward_small : forall p (inp out : list C), p <= 1 -> length inp = 2 ^ p ->
  length out = 2 ^ p -> split_radix_fft (2 ^ p) inp out Backward = Ok (DFT_list Backward inp).
Proof.
  intros p inp out Hp Li Lo. rewrite split_radix_SR by auto. f_equal. unfold DFT_list. rewrite Li.
  apply tab_ext. intros k Hk. destruct p as [|[|p]]; try lia.
  - change (2 ^ 0) with 1 in *. cbn [SR]. unfold DFT, Csum, bsum. cbn [Nat.mul]. rewrite W_0. ring.
  - change (2 ^ 1) with 2 in *. cbn [SR]. unfold DFT, Csum, bsum.
    destruct k as [|[|k]]; try lia; cbn [Nat.eqb Nat.mul Nat.add]; rewrite ?W_0, ?W_2_1; ring.
Qed.

(** The Stockham example: fft() is the transform with exponent +2 pi i jk/n, ifft() the
    one with -2 pi i jk/n (not the customary naming). *)
Theorem C82_stockham_fft : forall p (x : list C), length x = 2 ^ p ->
  sn_stockham_fft (2 ^ p) x = Ok (DFT_list Backward x) /\
  sn_stockham_ifft (2 ^ p) x = Ok (DFT_list Forward x).
Proof. intros. split; [apply sn_stockham_fft_ok | apply sn_stockham_ifft_ok]; auto. Qed.

(** radix4.cpp: c2c_stockham leaves the DFT in x for every order and either sign. *)
Theorem C82_radix4_stockham : forall d p (x work : list C), length x = 2 ^ p -> length work = 2 ^ p ->
  exists w', sn_c2c_stockham x work p (dsign d) = Ok (DFT_list d x, w').
Proof. exact sn_c2c_stockham_ok. Qed.

(** radix4.cpp: c2c_dit4 on four elements computes the transform of the other sign. *)
Theorem C82_dit4_four : forall d (x : list C), length x = 4 ->
  sn_c2c_dit4 x 1 (dsign d) = Ok (DFT_list (flip d) x).
Proof. intros d x Hx. destruct x as [|a [|b [|c [|e [|f x]]]]]; cbn in Hx; try lia. apply sn_dit4_four. Qed.

(** So it is not the DFT asked for, at any order from 1 on, with either sign. *)
Theorem C82_dit4_refuted : forall d p, 0 < p -> exists x y : list C, length x = 4 ^ p /\
  sn_c2c_dit4 x p (dsign d) = Ok y /\ y <> DFT_list d x.
Proof.
  intros d p Hp. destruct (TDFT_not_DFT d p Hp) as [x [L N]].
  exists x. eexists. split; [exact L|]. split; [apply sn_dit4_TDFT; auto|]. exact N.
Qed.

(** The two calls of main() (:214-218), forward and then backward divided by the size,
    print the input again, for every order. *)
Theorem C82_dit4_roundtrip : forall d p (x : list C), length x = 4 ^ p ->
  bind (sn_c2c_dit4 x p (dsign d)) (fun y => sn_c2c_dit4 y p (dsign (flip d))) =
  Ok (map (fun c => RtoC (INR (4 ^ p)) * c)%C x).
Proof.
  intros d p x Hx. rewrite sn_dit4_TDFT by auto. cbn [bind]. rewrite sn_dit4_TDFT by apply tab_length.
  f_equal. apply TDFT_list_inv. auto.
Qed.

(** The overload of c2c_dit4 with a table of factors: no table makes it the DFT.  The
    impulse at position 1 is transformed wrongly whatever the table holds. *)
Theorem C82_dit4_table_refuted : forall d p, 0 < p -> exists x : list C, length x = 4 ^ p /\
  forall w : list C, 4 ^ (p - 1) <= length w ->
  (exists y, sn_c2c_dit4_lut x w p (dsign d) = Ok y) /\
  sn_c2c_dit4_lut x w p (dsign d) <> Ok (DFT_list d x).
Proof.
  intros d p Hp. exists (impulse1 (4 ^ p)). split; [apply tab_length|]. intros w Hw. split.
  - eexists. apply sn_dit4_lut_impulse; auto.
  - apply sn_dit4_lut_wrong; auto.
Qed.

(** split_fft.cpp: the plan unrolled at compile time computes the DFT for every order from 1 on. *)
Theorem C82_static_plan : forall p d (x : list C), 0 < p -> length x = 2 ^ p ->
  static_fft p x d = Ok (DFT_list d x).
Proof. exact static_fft_ok. Qed.

(** dct.py: the three FFT-based functions compute the DCT-II of every non-empty input,
    of even or odd length. *)
Theorem C82_dct : forall x : list R, 0 < length x ->
  let D := tab (length x) (DCT2 (length x) (fun i => nth i x 0%R)) in
  dct2_2nfft_1 x = D /\ dct2_2nfft_2 x = D /\ dct2_nfft x = D.
Proof.
  intros x Hx D. split; [|split].
  - apply dct2_2nfft_1_ok; auto.
  - apply dct2_2nfft_2_ok; auto.
  - apply dct2_nfft_ok; auto.
Qed.

(** The size-4 run of split_radix.cpp:112-118, and an odd DCT length. *)
Example C82_example :
  split_radix_fft (2 ^ 2) [C1; C0; C0; C0] (repeat Ci 4) Forward = Ok (repeat C1 4) /\
  dct2_nfft [1; 2; 3]%R = tab 3 (DCT2 3 (fun i => nth i [1; 2; 3]%R 0%R)).
Proof.
  split.
  - rewrite C82_split_radix_forward by reflexivity. f_equal.
    unfold DFT_list, DFT, Csum, bsum, tab. cbn [length seq map nth Nat.mul Nat.add repeat]. rewrite !W_0.
    assert (L4 : forall a b c e : C, a = C1 -> b = C1 -> c = C1 -> e = C1 -> [a; b; c; e] = [C1; C1; C1; C1])
      by (intros; subst; auto).
    apply L4; ring.
  - apply C82_dct. cbn. lia.
Qed.

Print Assumptions C82_split_radix_forward.
Print Assumptions C82_split_radix_backward_refuted.
Print Assumptions C82_split_radix_backward_small.
Print Assumptions C82_stockham_fft.
Print Assumptions C82_radix4_stockham.
Print Assumptions C82_dit4_four.
Print Assumptions C82_dit4_refuted.
Print Assumptions C82_dit4_roundtrip.
Print Assumptions C82_dit4_table_refuted.
Print Assumptions C82_static_plan.
Print Assumptions C82_dct.
