(** Statistics, closeness predicates and normalisation: src/neo/algorithm/{allmatch,allclose,
    mean,variance,standard_deviation,mean_squared_error,root_mean_squared_error,
    normalize_energy,normalize_peak}.hpp, src/neo/convolution/normalize_impulse.hpp. *)
From Coq Require Import Reals List Arith Bool ZArith.
From Verif Require Import Base.Outcome Base.Alias Base.Cplx Model.Algorithm.
Import ListNotations.
Open Scope outcome_scope.

(** in_object: an mdspan of rank 1, or of rank 2 with its extents. *)
Inductive object (T : Type) :=
| Vec (v : list T)
| Mat (rows cols : nat) (m : list (list T)).
Arguments Vec {T} v.
Arguments Mat {T} rows cols m.

(** x.size() *)
Definition obj_size {T} (x : object T) : nat := match x with Vec v => length v | Mat r c _ => r * c end.

(** x[i] and x(i, j) *)
Definition rd2 {T} (m : list (list T)) (i j : nat) : outcome T := row <- rd m i ;; rd row j.

(** [for (auto i{0}; std::cmp_less(i, n); ++i)]: the counter is an int, ++ at 2^31 - 1 overflows. *)
Definition for_int {S} (n : nat) (body : nat -> S -> outcome S) (s : S) : outcome S :=
  for_range 0 n (fun i s =>
    s <- body i s ;;
    _ <- guard (Z.of_nat i + 1 <? 2 ^ 31)%Z ;;
    Ok s) s.

(** The nested loops over one object.  [int] tells whether the counters are ints. *)
Definition loop_over {S} (int : bool) (n : nat) := if int then @for_int S n else @for_range S 0 n.
Definition fold_obj {T S} (int : bool) (x : object T) (f : T -> S -> S) (s : S) : outcome S :=
  match x with
  | Vec v => loop_over int (length v) (fun i s => a <- rd v i ;; Ok (f a s)) s
  | Mat r c m => loop_over int r (fun i s => loop_over int c (fun j s => a <- rd2 m i j ;; Ok (f a s)) s) s
  end.

(** Loops over two objects with the extents of the first.  Different ranks do not compile
    in C++; UB here. *)
Definition walk2 {A B S} (int : bool) (x : object A) (y : object B) (body : outcome A -> outcome B -> S -> outcome S) (s : S) : outcome S :=
  match x, y with
  | Vec v, Vec w => loop_over int (length v) (fun i s => body (rd v i) (rd w i) s) s
  | Mat r c m, Mat _ _ n => loop_over int r (fun i s => loop_over int c (fun j s => body (rd2 m i j) (rd2 n i j) s) s) s
  | _, _ => UB
  end.

(** src/neo/algorithm/allmatch.hpp:15-37 — two objects.  The state is false once the function
    has returned; nothing is read after that.  The assert is a release-mode no-op. *)
Definition allmatch2 {A B} (lhs : object A) (rhs : object B) (predicate : A -> B -> bool) : outcome bool :=
  walk2 true lhs rhs (fun l r (going : bool) =>
    if going then a <- l ;; b <- r ;; Ok (predicate a b) else Ok false) true.

(** src/neo/algorithm/allmatch.hpp:39-43 — one object. *)
Definition allmatch1 {A} (obj : object A) (predicate : A -> bool) : outcome bool :=
  allmatch2 obj obj (fun val _ => predicate val).

(** Comparison [x <= y] of two floats. *)
Definition Rleb (x y : R) : bool := if Rle_dec x y then true else false.

(** src/neo/algorithm/allclose.hpp:18-24 — real and complex elements. *)
Definition allclose (lhs rhs : object R) (tolerance : R) : outcome bool :=
  allmatch2 lhs rhs (fun left right => Rleb (Rabs (left - right)) tolerance).
Definition allclose_c (lhs rhs : object C) (tolerance : R) : outcome bool :=
  allmatch2 lhs rhs (fun left right => Rleb (Cabs (left - right)%C) tolerance).

(** src/neo/algorithm/allclose.hpp:26-44 — default tolerance; [single] for float. *)
Definition default_tolerance (single : bool) : R := if single then (/ 10 ^ 5)%R else (/ 10 ^ 9)%R.
Definition allclose_default (single : bool) (lhs rhs : object R) : outcome bool :=
  allclose lhs rhs (default_tolerance single).

(** src/neo/algorithm/mean.hpp:18-38. *)
Definition mean_unchecked (x : object R) : outcome R :=
  sum <- fold_obj true x (fun v sum => (sum + v)%R) 0%R ;;
  Ok (sum / INR (obj_size x))%R.

(** src/neo/algorithm/mean.hpp:43-50. *)
Definition mean (x : object R) : outcome (option R) :=
  if obj_size x <? 1 then Ok None else
  m <- mean_unchecked x ;;
  Ok (Some m).

(** src/neo/algorithm/variance.hpp:16-44. *)
Definition variance (x : object R) : outcome (option R) :=
  if obj_size x <? 2 then Ok None else
  avg <- mean_unchecked x ;;
  deviation <- fold_obj true x (fun v dev => let diff := (v - avg)%R in (dev + diff * diff)%R) 0%R ;;
  Ok (Some (deviation / INR (obj_size x))%R).

(** src/neo/algorithm/standard_deviation.hpp:16-23. *)
Definition standard_deviation (x : object R) : outcome (option R) :=
  var <- variance x ;;
  match var with Some v => Ok (Some (sqrt v)) | None => Ok None end.

(** src/neo/algorithm/mean_squared_error.hpp:16-55; [mag] is abs_if_needed: the identity for
    real elements, the modulus for complex ones.  Index has the mdspans' index type. *)
Definition mean_squared_error {T} (mag : T -> R) (lhs rhs : object T) : outcome R :=
  sum <- walk2 false lhs rhs (fun l r sum =>
    a <- l ;; b <- r ;;
    let diff := (mag a - mag b)%R in
    let squared := (diff * diff)%R in
    Ok (sum + squared)%R) 0%R ;;
  Ok (sum / INR (obj_size lhs))%R.
Definition mse_r := @mean_squared_error R (fun v => v).
Definition mse_c := @mean_squared_error C Cabs.

(** src/neo/algorithm/root_mean_squared_error.hpp:18-23. *)
Definition rmse_r (lhs rhs : object R) : outcome R := e <- mse_r lhs rhs ;; Ok (sqrt e).
Definition rmse_c (lhs rhs : object C) : outcome R := e <- mse_c lhs rhs ;; Ok (sqrt e).

(** src/neo/math/float_equality.hpp:14-24 — exact(), real numbers. *)
Definition exact (x y : R) : bool := if Req_EM_T x y then true else false.

(** src/neo/algorithm/scale.hpp:14-28 through linalg_unary_op.hpp:10-34, both ranks; for rank 2
    the row-by-row order (the column-by-column order of layout_left is the subject of C13). *)
Definition scale_obj (alpha : R) (obj : object R) : outcome (object R) :=
  match obj with
  | Vec v => v <- scale_r alpha v ;; Ok (Vec v)
  | Mat r c m =>
      m <- for_range 0 r (fun i m =>
        for_range 0 c (fun j m =>
          row <- rd m i ;; v <- rd row j ;; row <- wr row j (v * alpha)%R ;; wr m i row) m) m ;;
      Ok (Mat r c m)
  end.

(** src/neo/algorithm/normalize_energy.hpp:17-42. *)
Definition normalize_energy_factor (obj : object R) : outcome R :=
  energy <- fold_obj false obj (fun v energy => (energy + v * v)%R) 0%R ;;
  if exact energy 0 then Ok 1%R else Ok (1 / sqrt energy)%R.

(** src/neo/algorithm/normalize_energy.hpp:46-50. *)
Definition normalize_energy (obj : object R) : outcome (object R) :=
  f <- normalize_energy_factor obj ;;
  scale_obj f obj.

(** src/neo/algorithm/normalize_peak.hpp:19-52. *)
Definition normalize_peak_factor (obj : object R) : outcome R :=
  let empty := match obj with Vec v => length v =? 0 | Mat r c _ => (r =? 0) && (c =? 0) end in
  if empty then Ok 1%R else
  abs_max <- fold_obj false obj (fun v abs_max => Rmax abs_max (Rabs v)) 0%R ;;
  if exact abs_max 0 then Ok 1%R else Ok (1 / Rabs abs_max)%R.

(** src/neo/algorithm/normalize_peak.hpp:55-59. *)
Definition normalize_peak (obj : object R) : outcome (object R) :=
  f <- normalize_peak_factor obj ;;
  scale_obj f obj.

(** src/neo/convolution/normalize_impulse.hpp:11-33. *)
Definition normalize_impulse (obj : object R) : outcome (object R) :=
  match obj with
  | Vec _ => normalize_energy obj
  | Mat r c m =>
      if r <? 1 then Ok obj else
      channel0 <- rd m 0 ;;
      factor <- normalize_energy_factor (Vec channel0) ;;
      factor <- for_range 1 r (fun ch factor =>
        channel <- rd m ch ;;
        f <- normalize_energy_factor (Vec channel) ;;
        Ok (Rmin factor f)) factor ;;
      scale_obj factor obj
  end.
