(** The FFT plans as threads over a shared memory: the code of Model/Fft2.v and
    Model/FftApps.v access by access.  Objects (the arrays a plan owns and the vectors the
    caller passes) are numbered; element accesses outside an array are a crash. *)
From Coq Require Import List Arith Bool Reals.
From Verif Require Import Base.Outcome Base.Cplx Spec.Dft Spec.Interleaving.
Import ListNotations.
Local Arguments Nat.div : simpl never.

(** x[i] for an array object [o] of [n] elements, as a complex, real or index value. *)
Definition get_c (o n i : nat) : prog C :=
  if i <? n then Read (o, i) (fun v => match v with Cpx c => Done c | _ => Crash end) else Crash.
Definition get_r (o n i : nat) : prog R :=
  if i <? n then Read (o, i) (fun v => match v with Flt r => Done r | _ => Crash end) else Crash.
Definition get_i (o n i : nat) : prog nat :=
  if i <? n then Read (o, i) (fun v => match v with Index k => Done k | _ => Crash end) else Crash.
Definition put (o n i : nat) (v : value) : prog unit :=
  if i <? n then Write (o, i) v (Done tt) else Crash.

(** [n] iterations, the loop variable being [lo], [lo+step], ... *)
Fixpoint ploop (n lo step : nat) (body : nat -> prog unit) : prog unit :=
  match n with
  | O => Done tt
  | S n' => _ <~ body lo ;; ploop n' (lo + step) step body
  end.
Definition pfor (lo hi : nat) (body : nat -> prog unit) : prog unit := ploop (hi - lo) lo 1 body.
Definition pfor_step (lo hi step : nat) (body : nat -> prog unit) : prog unit :=
  ploop ((hi - lo + (step - 1)) / step) lo step body.

(** src/neo/fft/reference/c2c_dit2_plan.hpp:42-51 and bitrevorder.hpp:77 — the arrays a
    complex plan of the given order owns: _reorder._table, _wf and _wb. *)
Record plan_arrays := PlanArrays { pa_order : nat; pa_table : nat; pa_wf : nat; pa_wb : nat }.

(** std::swap(x[i], x[j]): tmp = x[i]; x[i] = x[j]; x[j] = tmp. *)
Definition swap_prog (x n i j : nat) : prog unit :=
  a <~ get_c x n i ;; b <~ get_c x n j ;; _ <~ put x n i (Cpx b) ;; put x n j (Cpx a).

(** src/neo/fft/reference/bitrevorder.hpp:23-32 — the table is read twice when a swap is due. *)
Definition bitrev_prog (table x n : nat) : prog unit :=
  pfor 0 n (fun i =>
    t <~ get_i table n i ;;
    if i <? t then t' <~ get_i table n i ;; swap_prog x n i t' else Done tt).

(** src/neo/fft/reference/kernel/c2c_dit2.hpp:133-146 — stage 0. *)
Definition stage0_prog (x n : nat) : prog unit :=
  pfor_step 0 n 2 (fun k =>
    a <~ get_c x n k ;; b <~ get_c x n (k + 1) ;;
    a' <~ get_c x n k ;; b' <~ get_c x n (k + 1) ;;
    _ <~ put x n (k + 1) (Cpx (a' - b')%C) ;;
    put x n k (Cpx (a + b)%C)).

(** src/neo/fft/reference/kernel/c2c_dit2.hpp:154-165 — one later stage. *)
Definition stage_prog (tw x n stage_length stride tw_stride : nat) : prog unit :=
  pfor_step 0 n stride (fun k =>
    pfor 0 stage_length (fun pair =>
      w <~ get_c tw (n / 2) (pair * tw_stride) ;;
      let i1 := k + pair in
      let i2 := k + pair + stage_length in
      a <~ get_c x n i1 ;; b <~ get_c x n i2 ;;
      a' <~ get_c x n i1 ;; b' <~ get_c x n i2 ;;
      _ <~ put x n i2 (Cpx (a' - w * b')%C) ;;
      put x n i1 (Cpx (a + w * b)%C))).

(** src/neo/fft/reference/kernel/c2c_dit2.hpp:122-168 — kernel c2c_dit2_v3. *)
Definition kernel_prog (order tw x : nat) : prog unit :=
  let n := 2 ^ order in
  _ <~ stage0_prog x n ;;
  pfor 1 order (fun stage => stage_prog tw x n (2 ^ stage) (2 ^ (stage + 1)) (2 ^ (order - stage - 1))).

(** src/neo/fft/reference/c2c_dit2_plan.hpp:81-95 — operator()(x, dir). *)
Definition fft_prog (p : plan_arrays) (x : nat) (dir : direction) : prog unit :=
  _ <~ bitrev_prog (pa_table p) x (2 ^ pa_order p) ;;
  kernel_prog (pa_order p) (match dir with Forward => pa_wf p | Backward => pa_wb p end) x.

(** src/neo/fft/fallback/fallback_rfft_plan.hpp:33-34 — copy the input into the plan's
    buffer [buf] and transform it there. *)
Definition rfft_transform_prog (p : plan_arrays) (buf inp : nat) : prog unit :=
  let n := 2 ^ pa_order p in
  _ <~ pfor 0 n (fun i => v <~ get_r inp n i ;; put buf n i (Cpx (RtoC v))) ;;
  fft_prog p buf Forward.

(** src/neo/fft/fallback/fallback_rfft_plan.hpp:35 — copy the lower half to the output. *)
Definition rfft_output_prog (p : plan_arrays) (buf out : nat) : prog unit :=
  let n := 2 ^ pa_order p in
  let coeffs := n / 2 + 1 in
  pfor 0 coeffs (fun i => v <~ get_c buf n i ;; put out coeffs i (Cpx v)).

(** src/neo/fft/fallback/fallback_rfft_plan.hpp:27-36 — real to complex. *)
Definition rfft_prog (p : plan_arrays) (buf inp out : nat) : prog unit :=
  _ <~ rfft_transform_prog p buf inp ;; rfft_output_prog p buf out.

(** src/neo/fft/fallback/fallback_rfft_plan.hpp:38-54 — complex to real, for an input of
    n/2+1 bins. *)
Definition irfft_prog (p : plan_arrays) (buf inp out : nat) : prog unit :=
  let n := 2 ^ pa_order p in
  let coeffs := n / 2 + 1 in
  _ <~ pfor 0 coeffs (fun i => v <~ get_c inp coeffs i ;; put buf n i (Cpx v)) ;;
  _ <~ pfor coeffs n (fun i => v <~ get_c buf n (n - i) ;; put buf n i (Cpx (Cconj v))) ;;
  _ <~ fft_prog p buf Backward ;;
  pfor 0 n (fun i => v <~ get_c buf n i ;; put out n i (Flt (fst v))).
