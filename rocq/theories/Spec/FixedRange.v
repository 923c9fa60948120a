(** Specification: the values a stored fixed-point number can take. *)
From Coq Require Import ZArith Reals List.
From Verif Require Import Model.Integers.
Import ListNotations.
Local Open Scope R_scope.

(** The number of the range [imin t .. imax t] of the storage type that is nearest to [v]. *)
Definition clip (t : ity) (v : R) : R := Rmax (IZR (imin t)) (Rmin (IZR (imax t)) v).

(** The exact real and imaginary part, in units of 2^-F, of element [i] of the product of the
    arrays q = (x.real, x.imag, y.real, y.imag). *)
Definition exact_re (F : Z) (i : nat) (q : list Z * list Z * list Z * list Z) : R :=
  let '(xre, xim, yre, yim) := q in
  IZR (nth i xre 0 * nth i yre 0 - nth i xim 0 * nth i yim 0)%Z / IZR (2 ^ F).
Definition exact_im (F : Z) (i : nat) (q : list Z * list Z * list Z * list Z) : R :=
  let '(xre, xim, yre, yim) := q in
  IZR (nth i xre 0 * nth i yim 0 + nth i xim 0 * nth i yre 0)%Z / IZR (2 ^ F).

(** z plus the sum of the list *)
Definition total (z : R) (l : list R) : R := z + fold_right Rplus 0 l.
