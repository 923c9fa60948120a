(** Vocabulary for the plans of the vendor back ends. *)
From Coq Require Import Reals List Arith.
From Verif Require Import Base.Outcome Base.Sums Base.Cplx Spec.Dft Spec.Views Model.Algorithm Model.VendorFft.

(** A vector of n distinct elements inside an array of [len] cells.  A vector whose type has
    layout_right or layout_left has stride 1. *)
Definition vector_ok (n : nat) (x : vec) (len : nat) : Prop :=
  u_size (vec_view x) = n /\ inside1 (vec_view x) n len /\ safe1 (vec_view x) (vec_view x) n /\
  (vec_layout x <> LayoutStride -> u_s (vec_view x) = 1).

(** No cell of one vector is a cell of the other. *)
Definition disjoint (n : nat) (x y : vec) : Prop :=
  forall i j, i < n -> j < n -> at1 (vec_view x) i <> at1 (vec_view y) j.

(** Element j of a vector. *)
Definition elem {T} (d : T) (x : vec) (mem : list T) (j : nat) : T := nth (at1 (vec_view x) j) mem d.

(** [out] now holds the DFT of what [x] held; every other cell is unchanged. *)
Definition holds_dft (d : direction) (n : nat) (x out : vec) (mem mem' : list C) : Prop :=
  written1 C0 (vec_view out) n (DFT d n (elem C0 x mem)) mem mem'.

(** The whole of an array as a vector. *)
Definition whole (n : nat) (l : layout) : vec := Vec (View1 0 n 1) l.

(** Plan states reachable from the constructor by calls that return. *)
Inductive vdsp_reach (order : nat) : vdsp_plan -> Prop :=
| vdsp_made : forall p, make_vdsp order = Ok p -> vdsp_reach order p
| vdsp_ran : forall p x d mem p' mem', vdsp_reach order p -> vdsp_run p x d mem = Ok (p', mem') -> vdsp_reach order p'.

Inductive mkl_reach (order : nat) : mkl_plan -> Prop :=
| mkl_made : forall p, make_mkl order = Ok p -> mkl_reach order p
| mkl_ran : forall p x d mem p' mem', mkl_reach order p -> mkl_run p x d mem = Ok (p', mem') -> mkl_reach order p'.

Inductive ipp_reach (pr : precision) (order : nat) : ipp_plan -> Prop :=
| ipp_made : forall p, make_ipp pr order = Ok p -> ipp_reach pr order p
| ipp_ran : forall p x d mem p' mem', ipp_reach pr order p -> ipp_run p x d mem = Ok (p', mem') -> ipp_reach pr order p'
| ipp_ran_copy : forall p x y d mem p' mem', ipp_reach pr order p -> ipp_run_copy p x y d mem = Ok (p', mem') ->
    ipp_reach pr order p'.

Inductive ipp_dft_reach (size : nat) : ipp_dft_plan -> Prop :=
| ipp_dft_made : forall p, make_ipp_dft size = Ok p -> ipp_dft_reach size p
| ipp_dft_ran : forall p x d mem p' mem', ipp_dft_reach size p -> ipp_dft_run p x d mem = Ok (p', mem') ->
    ipp_dft_reach size p'
| ipp_dft_ran_copy : forall p x y d mem p' mem', ipp_dft_reach size p -> ipp_dft_run_copy p x y d mem = Ok (p', mem') ->
    ipp_dft_reach size p'.

Inductive ipp_rfft_reach (pr : precision) (order : nat) : ipp_rfft_plan -> Prop :=
| ipp_rfft_made : forall p, make_ipp_rfft pr order = Ok p -> ipp_rfft_reach pr order p
| ipp_rfft_fwd : forall p x mem y omem p' omem', ipp_rfft_reach pr order p ->
    ipp_rfft_forward p x mem y omem = Ok (p', omem') -> ipp_rfft_reach pr order p'
| ipp_rfft_bwd : forall p x mem y omem p' omem', ipp_rfft_reach pr order p ->
    ipp_rfft_backward p x mem y omem = Ok (p', omem') -> ipp_rfft_reach pr order p'.

Inductive ipp_dct_reach (order : nat) : ipp_dct_plan -> Prop :=
| ipp_dct_made : forall p, make_ipp_dct order = Ok p -> ipp_dct_reach order p
| ipp_dct_ran : forall k p x mem p' mem', ipp_dct_reach order p -> ipp_dct_run k p x mem = Ok (p', mem') ->
    ipp_dct_reach order p'.

(** Orthonormal DCT-II coefficient k: sqrt(c/n) sum_i x_i cos(pi k (2i+1) / (2n)), c = 1 for k = 0, else 2. *)
Definition DCT2_ortho (n : nat) (x : nat -> R) (k : nat) : R :=
  (sqrt ((if Nat.eqb k 0 then 1 else 2) / INR n) *
   Rsum n (fun i => x i * cos (PI * INR k * INR (2 * i + 1) / INR (2 * n))))%R.
