(** Integer helpers: src/neo/bit, src/neo/math/{ipow,idiv,is_even,is_odd}.hpp,
    src/neo/fft/order.hpp.  Values are [Z]; C++ integer types are described by width and
    signedness; promotion to int, wrap-around and signed-overflow UB are explicit. *)
From Coq Require Import ZArith List Bool.
From Verif Require Import Base.Outcome Model.Fft2.
Local Open Scope Z_scope.

(** A C++ integer type. *)
Record ity := Ity { iwidth : Z; isigned : bool }.

Definition imin (t : ity) : Z := if isigned t then - 2 ^ (iwidth t - 1) else 0.
Definition imax (t : ity) : Z := if isigned t then 2 ^ (iwidth t - 1) - 1 else 2 ^ iwidth t - 1.
Definition fits (t : ity) (v : Z) : Prop := imin t <= v <= imax t.
Definition fitsb (t : ity) (v : Z) : bool := (imin t <=? v) && (v <=? imax t).

(** static_cast to [t] (modulo 2^w; C++20 also for signed targets). *)
Definition iconv (t : ity) (v : Z) : Z :=
  if isigned t then (v + 2 ^ (iwidth t - 1)) mod 2 ^ iwidth t - 2 ^ (iwidth t - 1)
  else v mod 2 ^ iwidth t.

Definition int32 : ity := Ity 32 true.

(** Integral promotion. *)
Definition promote (t : ity) : ity := if iwidth t <? 32 then int32 else t.

(** Result [v] of +, -, * on operands of type [t] (usual arithmetic conversions). *)
Definition iarith (t : ity) (v : Z) : outcome Z :=
  let p := promote t in
  if isigned p then (if fitsb p v then Ok v else UB) else Ok (iconv p v).

(** src/neo/bit/bit_ceil.hpp:12-29 — detail::bit_ceil_fallback(x); [w] is the width of
    UInt (8, 16, 32 or 64). *)
Definition bit_ceil_fallback (w : Z) (x : Z) : Z :=
  let x := (x - 1) mod 2 ^ w in
  let x := Z.lor x (Z.shiftr x 1) in
  let x := Z.lor x (Z.shiftr x 2) in
  let x := Z.lor x (Z.shiftr x 4) in
  let x := if 8 <? w then Z.lor x (Z.shiftr x 8) else x in
  let x := if 16 <? w then Z.lor x (Z.shiftr x 16) else x in
  let x := if 32 <? w then Z.lor x (Z.shiftr x 32) else x in
  (x + 1) mod 2 ^ w.

(** src/neo/bit/bit_ceil.hpp:33-41 — bit_ceil(x) where the library has std::bit_ceil
    ([bit.pow.two]: smallest power of two not below x; UB if not representable). *)
Definition bit_ceil (w : Z) (x : Z) : outcome Z :=
  let r := 2 ^ Z.log2_up x in
  if r <? 2 ^ w then Ok r else UB.

(** src/neo/fft/order.hpp:33-39 — next_order(size), Int = size_t. *)
Definition next_order (n : nat) : outcome nat :=
  c <- bit_ceil 64 (Z.of_nat n) ;;
  bit_log2 (Z.to_nat c).

(** src/neo/math/ipow.hpp:10-18 — ipow(base, exponent); the loop runs [exponent] times
    (not at all when negative). *)
Definition ipow (t : ity) (base exponent : Z) : outcome Z :=
  for_range 0 (Z.to_nat exponent) (fun _ result =>
    v <- iarith t (result * base) ;; Ok (iconv t v)) 1.

(** src/neo/math/ipow.hpp:21-41 — ipow<Base>(exponent): shifts for 2, 4, 8, 16, 32. *)
Definition ipow_shift (t : ity) (k exponent : Z) : outcome Z :=
  m <- (if k =? 1 then Ok exponent else iarith t (exponent * k)) ;;
  let s := iconv (Ity (iwidth t) false) m in
  if s <? iwidth (promote t) then Ok (iconv t (2 ^ s)) else UB.

Definition ipow_const (t : ity) (base exponent : Z) : outcome Z :=
  if base =? 2 then ipow_shift t 1 exponent
  else if base =? 4 then ipow_shift t 2 exponent
  else if base =? 8 then ipow_shift t 3 exponent
  else if base =? 16 then ipow_shift t 4 exponent
  else if base =? 32 then ipow_shift t 5 exponent
  else ipow t base exponent.

(** src/neo/fft/order.hpp:26-31 — size(order). *)
Definition fft_size (t : ity) (order : Z) : outcome Z := ipow_const t 2 order.

(** src/neo/math/idiv.hpp:9-14 — idiv(x, y) = (x + y - 1) / y. *)
Definition idiv (t : ity) (x y : Z) : outcome Z :=
  s <- iarith t (x + y) ;;
  s <- iarith t (s - 1) ;;
  if y =? 0 then UB else
  q <- iarith t (Z.quot s y) ;;
  Ok (iconv t q).

(** src/neo/math/is_even.hpp:9-14, is_odd.hpp:9-14. *)
Definition is_even (x : Z) : bool := Z.land x 1 =? 0.
Definition is_odd (x : Z) : bool := negb (Z.land x 1 =? 0).
