(** Model of digit reversal and the in-place radix-3/radix-5 plans. *)
From Coq Require Import List Arith ZArith Bool Reals.
From Verif Require Import Base.Outcome Base.Cplx Spec.Dft Model.Fft2.
Import ListNotations.
Open Scope outcome_scope.

(** src/neo/fft/reference/digitrevorder.hpp:38-41 —
    [while (k <= j) { j -= k; k /= Radix; }]; endless (UB) once k = 0. *)
Definition digitrev_carry (radix k j : nat) : outcome (nat * nat) :=
  while_fuel (j + 1) (fun s : nat * nat => fst s <=? snd s)
    (fun s => Ok (fst s / radix, snd s - fst s)) (k, j).

(** src/neo/fft/reference/digitrevorder.hpp:29-46 — digitrevorder_plan<Radix>::make(size).
    [size - 1UL] wraps for size 0: then lut[0] is out of range (UB). *)
Definition digitrev_make (radix size : nat) : outcome (list nat) :=
  if size =? 0 then UB else
  '(_, lut) <- for_range 0 (size - 1) (fun i s =>
      let j := fst s in
      lut <- wr (snd s) i j ;;
      '(k, j) <- digitrev_carry radix ((radix - 1) * size / radix) j ;;
      Ok (j + k / (radix - 1), lut))
    (0, repeat 0 size) ;;
  Ok lut.

(** src/neo/fft/reference/digitrevorder.hpp:17-26 — operator()(x). *)
Definition digitrev_apply {T} (lut : list nat) (x : list T) : outcome (list T) :=
  for_range 0 (length lut) (fun i x =>
    t <- rd lut i ;;
    if i <? t then swap x i t else Ok x) x.

(** Result of an [int] computation: UB when it leaves the 32-bit range
    (all ints in c2c_dif3_plan.hpp / c2c_dif5_plan.hpp are non-negative). *)
Definition int_mul (a b : nat) : outcome nat :=
  if (Z.of_nat a * Z.of_nat b <? 2 ^ 31)%Z then Ok (a * b) else UB.

(** src/neo/fft/reference/c2c_dif3_plan.hpp:58-75 — one radix-3 butterfly. *)
Definition dif3_butterfly (dir : direction) (wi : C) (i j mr : nat) (x : list C)
  : outcome (list C) :=
  let w31 := twiddle 3 1 Forward in
  let w32 := twiddle 3 2 Forward in
  t0 <- rd x (i + j) ;;
  t1 <- rd x (i + j + mr) ;;
  t2 <- rd x (i + j + 2 * mr) ;;
  let t1 := (t1 * wi)%C in
  let t2 := (t2 * (wi * wi))%C in
  x0 <- rd x (i + j) ;;
  x <- wr x (i + j) (x0 + (t1 + t2))%C ;;
  match dir with
  | Forward =>
    x <- wr x (i + j + mr) (t0 + t1 * w31 + t2 * w32)%C ;;
    wr x (i + j + 2 * mr) (t0 + t1 * w32 + t2 * w31)%C
  | Backward =>
    x <- wr x (i + j + mr) (t0 + t1 * w32 + t2 * w31)%C ;;
    wr x (i + j + 2 * mr) (t0 + t1 * w31 + t2 * w32)%C
  end.

(** src/neo/fft/reference/c2c_dif5_plan.hpp:60-86 — one radix-5 butterfly. *)
Definition dif5_butterfly (dir : direction) (wi : C) (i j mr : nat) (x : list C)
  : outcome (list C) :=
  let w51 := twiddle 5 1 Forward in
  let w52 := twiddle 5 2 Forward in
  let w53 := twiddle 5 3 Forward in
  let w54 := twiddle 5 4 Forward in
  t0 <- rd x (i + j) ;;
  t1 <- rd x (i + j + mr) ;;
  t2 <- rd x (i + j + 2 * mr) ;;
  t3 <- rd x (i + j + 3 * mr) ;;
  t4 <- rd x (i + j + 4 * mr) ;;
  let t1 := (t1 * wi)%C in
  let t2 := (t2 * (wi * wi))%C in
  let t3 := (t3 * (wi * wi * wi))%C in
  let t4 := (t4 * (wi * wi * wi * wi))%C in
  x0 <- rd x (i + j) ;;
  x <- wr x (i + j) (x0 + (t1 + t2 + t3 + t4))%C ;;
  match dir with
  | Forward =>
    x <- wr x (i + j + mr) (t0 + t1 * w51 + t2 * w52 + t3 * w53 + t4 * w54)%C ;;
    x <- wr x (i + j + 2 * mr) (t0 + t1 * w52 + t2 * w54 + t3 * w51 + t4 * w53)%C ;;
    x <- wr x (i + j + 3 * mr) (t0 + t1 * w53 + t2 * w51 + t3 * w54 + t4 * w52)%C ;;
    wr x (i + j + 4 * mr) (t0 + t1 * w54 + t2 * w53 + t3 * w52 + t4 * w51)%C
  | Backward =>
    x <- wr x (i + j + mr) (t0 + t1 * w54 + t2 * w53 + t3 * w52 + t4 * w51)%C ;;
    x <- wr x (i + j + 2 * mr) (t0 + t1 * w53 + t2 * w51 + t3 * w54 + t4 * w52)%C ;;
    x <- wr x (i + j + 3 * mr) (t0 + t1 * w52 + t2 * w54 + t3 * w51 + t4 * w53)%C ;;
    wr x (i + j + 4 * mr) (t0 + t1 * w51 + t2 * w52 + t3 * w53 + t4 * w54)%C
  end.

(** src/neo/fft/reference/c2c_dif3_plan.hpp:49-78 and c2c_dif5_plan.hpp:51-89 (same
    text up to the butterfly) — body of the loop over m. *)
Definition difR_stage (bf : direction -> C -> nat -> nat -> nat -> list C -> outcome (list C))
  (radix : nat) (dir : direction) (m : nat) (x : list C) : outcome (list C) :=
  let w := twiddle m 1 dir in
  let mr := m / radix in
  '(_, x) <- for_range 0 mr (fun i s =>
      let wi := fst s in
      x <- for_step 0 (length x) m (fun j x => bf dir wi i j mr x) (snd s) ;;
      Ok ((wi * w)%C, x))
    (C1, x) ;;
  Ok x.

(** src/neo/fft/reference/c2c_dif3_plan.hpp:36-80 and c2c_dif5_plan.hpp:36-91 —
    operator()(x, dir): digit reversal, then
    [for (m = radix; m <= len; m *= radix)] (fuel: len). *)
Definition difR_run (bf : direction -> C -> nat -> nat -> nat -> list C -> outcome (list C))
  (radix : nat) (lut : list nat) (x : list C) (dir : direction) : outcome (list C) :=
  x <- digitrev_apply lut x ;;
  '(_, x) <- while_fuel (length x)
      (fun s : nat * list C => fst s <=? length (snd s))
      (fun s =>
         x <- difR_stage bf radix dir (fst s) (snd s) ;;
         m <- int_mul (fst s) radix ;;
         Ok (m, x))
      (radix, x) ;;
  Ok x.

(** src/neo/fft/reference/c2c_dif3_plan.hpp:18-85 — c2c_dif3_plan{order}(x, dir);
    size() = ipow<3>(order) = 3^order. *)
Definition c2c_dif3_plan (order : nat) (x : list C) (dir : direction) : outcome (list C) :=
  lut <- digitrev_make 3 (3 ^ order) ;;
  difR_run dif3_butterfly 3 lut x dir.

(** src/neo/fft/reference/c2c_dif5_plan.hpp:18-96 — c2c_dif5_plan{order}(x, dir). *)
Definition c2c_dif5_plan (order : nat) (x : list C) (dir : direction) : outcome (list C) :=
  lut <- digitrev_make 5 (5 ^ order) ;;
  difR_run dif5_butterfly 5 lut x dir.
