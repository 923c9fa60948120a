(** Direct convolution, statistics and normalisation in rounded arithmetic:
    src/neo/convolution/{direct_convolve,normalize_impulse}.hpp, src/neo/algorithm/{mean,variance,
    standard_deviation,mean_squared_error,root_mean_squared_error,normalize_energy,
    normalize_peak,scale}.hpp.

    [rnd] rounds the exact result of every floating point operation, in the order of the source;
    see Model/RoundedFft.v.  std::sqrt rounds correctly (IEEE 754).  A size converted to Float is
    rounded. *)
From Coq Require Import Reals List Arith ZArith Bool.
From Verif Require Import Base.Outcome Base.Alias Base.Cplx Model.Algorithm Model.Convolution Model.Statistics.
Import ListNotations.
Local Open Scope outcome_scope.

Section Rounded.
Variable rnd : R -> R.

(** src/neo/convolution/direct_convolve.hpp:16-72 — out[k] += a[m] * b[k - m]: a product and a
    sum, both rounded. *)
Definition rdirect_convolve_into : list R -> list R -> list R -> outcome (list R) :=
  direct_convolve_into R 0%R (fun a b => rnd (a + b)%R) (fun a b => rnd (a * b)%R).
Definition rdirect_convolve : list R -> list R -> outcome (list R) :=
  direct_convolve R 0%R (fun a b => rnd (a + b)%R) (fun a b => rnd (a * b)%R).

(** src/neo/algorithm/mean.hpp:18-38. *)
Definition rmean_unchecked (x : object R) : outcome R :=
  sum <- fold_obj true x (fun v sum => rnd (sum + v)%R) 0%R ;;
  Ok (rnd (sum / rnd (INR (obj_size x))))%R.

(** src/neo/algorithm/mean.hpp:43-50. *)
Definition rmean (x : object R) : outcome (option R) :=
  if obj_size x <? 1 then Ok None else
  m <- rmean_unchecked x ;;
  Ok (Some m).

(** src/neo/algorithm/variance.hpp:16-44. *)
Definition rvariance (x : object R) : outcome (option R) :=
  if obj_size x <? 2 then Ok None else
  avg <- rmean_unchecked x ;;
  deviation <- fold_obj true x (fun v dev => let diff := rnd (v - avg)%R in rnd (dev + rnd (diff * diff))%R) 0%R ;;
  Ok (Some (rnd (deviation / rnd (INR (obj_size x)))%R)).

(** src/neo/algorithm/standard_deviation.hpp:16-23. *)
Definition rstandard_deviation (x : object R) : outcome (option R) :=
  var <- rvariance x ;;
  match var with Some v => Ok (Some (rnd (sqrt v))) | None => Ok None end.

(** src/neo/algorithm/mean_squared_error.hpp:16-55, real elements. *)
Definition rmean_squared_error (lhs rhs : object R) : outcome R :=
  sum <- walk2 false lhs rhs (fun l r sum =>
    a <- l ;; b <- r ;;
    let diff := rnd (a - b)%R in
    let squared := rnd (diff * diff)%R in
    Ok (rnd (sum + squared)%R)) 0%R ;;
  Ok (rnd (sum / rnd (INR (obj_size lhs))))%R.

(** src/neo/algorithm/root_mean_squared_error.hpp:18-23. *)
Definition rroot_mean_squared_error (lhs rhs : object R) : outcome R :=
  e <- rmean_squared_error lhs rhs ;; Ok (rnd (sqrt e)).

(** src/neo/algorithm/scale.hpp:14-28 through linalg_unary_op.hpp:10-34; see [scale_obj]. *)
Definition rscale_obj (alpha : R) (obj : object R) : outcome (object R) :=
  match obj with
  | Vec v => v <- linalg_unary_op (fun v => rnd (v * alpha)%R) v ;; Ok (Vec v)
  | Mat r c m =>
      m <- for_range 0 r (fun i m =>
        for_range 0 c (fun j m =>
          row <- rd m i ;; v <- rd row j ;; row <- wr row j (rnd (v * alpha)%R) ;; wr m i row) m) m ;;
      Ok (Mat r c m)
  end.

(** src/neo/algorithm/normalize_energy.hpp:17-42. *)
Definition rnormalize_energy_factor (obj : object R) : outcome R :=
  energy <- fold_obj false obj (fun v energy => rnd (energy + rnd (v * v))%R) 0%R ;;
  if exact energy 0 then Ok 1%R else Ok (rnd (1 / rnd (sqrt energy)))%R.

(** src/neo/algorithm/normalize_energy.hpp:46-50. *)
Definition rnormalize_energy (obj : object R) : outcome (object R) :=
  f <- rnormalize_energy_factor obj ;;
  rscale_obj f obj.

(** src/neo/algorithm/normalize_peak.hpp:19-52; std::max and std::abs do not round. *)
Definition rnormalize_peak_factor (obj : object R) : outcome R :=
  let empty := match obj with Vec v => length v =? 0 | Mat r c _ => (r =? 0) && (c =? 0) end in
  if empty then Ok 1%R else
  abs_max <- fold_obj false obj (fun v abs_max => Rmax abs_max (Rabs v)) 0%R ;;
  if exact abs_max 0 then Ok 1%R else Ok (rnd (1 / Rabs abs_max))%R.

(** src/neo/algorithm/normalize_peak.hpp:55-59. *)
Definition rnormalize_peak (obj : object R) : outcome (object R) :=
  f <- rnormalize_peak_factor obj ;;
  rscale_obj f obj.

(** src/neo/convolution/normalize_impulse.hpp:11-33. *)
Definition rnormalize_impulse (obj : object R) : outcome (object R) :=
  match obj with
  | Vec _ => rnormalize_energy obj
  | Mat r c m =>
      if r <? 1 then Ok obj else
      channel0 <- rd m 0 ;;
      factor <- rnormalize_energy_factor (Vec channel0) ;;
      factor <- for_range 1 r (fun ch factor =>
        channel <- rd m ch ;;
        f <- rnormalize_energy_factor (Vec channel) ;;
        Ok (Rmin factor f)) factor ;;
      rscale_obj factor obj
  end.
End Rounded.
