(** The Python module: extra/python/src/main.cpp (pybind11), extra/python/src/neo/__init__.py
    and extra/python/src/neo/fft/__init__.py.
    Exact real arithmetic inside the transforms; the conversion of an argument to single
    precision rounds.  The release of the interpreter lock and the vectorized scalar
    functions (C52, C62) are not modelled.  Allocation succeeds whenever the size is valid. *)
From Coq Require Import Reals ZArith List Arith Bool String.
From Verif Require Import Base.Outcome Base.Cplx Spec.Dft.
From Verif Require Import Model.Integers Model.Fft2 Model.Algorithm Model.Convolution Model.Units Model.FixedPoint.
Import ListNotations.

(** NumPy element types; the last stands for every other type (integers, bool, ...). *)
Inductive dtype := Float32 | Float64 | Complex64 | Complex128 | OtherType.

Definition dtype_eqb (a b : dtype) : bool :=
  match a, b with
  | Float32, Float32 | Float64, Float64 | Complex64, Complex64 | Complex128, Complex128
  | OtherType, OtherType => true
  | _, _ => false
  end.

(** numpy.ndarray: the element whose bytes start at an address, the address of element 0,
    shape and byte strides, and the flags. *)
Record ndarray (T : Type) := NdArray { nd_dtype : dtype; nd_mem : Z -> T; nd_data : Z; nd_itemsize : Z;
  nd_shape : list nat; nd_strides : list Z; nd_writeable : bool; nd_c_style : bool; nd_f_style : bool }.
Arguments NdArray {T}. Arguments nd_dtype {T}. Arguments nd_mem {T}. Arguments nd_data {T}.
Arguments nd_itemsize {T}. Arguments nd_shape {T}. Arguments nd_strides {T}. Arguments nd_writeable {T}.
Arguments nd_c_style {T}. Arguments nd_f_style {T}.

Definition nd_ndim {T} (a : ndarray T) : nat := List.length (nd_shape a).

(** ** Overload resolution and conversion (pybind11)
    The overloads are tried in order of definition, first without conversions (an array
    argument must have exactly the element type), then with (array_t's default forcecast). *)
Fixpoint resolve_exact (overloads : list dtype) (args : list dtype) : option dtype :=
  match overloads with
  | [] => None
  | o :: rest => if forallb (dtype_eqb o) args then Some o else resolve_exact rest args
  end.

Definition resolve (overloads : list dtype) (args : list dtype) : outcome dtype :=
  match resolve_exact overloads args with
  | Some o => Ok o
  | None => match overloads with [] => Throw | o :: _ => Ok o end
  end.

(** main.cpp:248-258: the element types of the overloads, in order of definition. *)
Definition fft_overloads : list dtype := [Complex64; Complex128].
Definition convolve_overloads : list dtype := [Float32; Float64].

(** Elements in NumPy's order (one dimension; an array of another rank gives the rows of its
    first axis — never used there, conversions of such arrays keep shape and strides). *)
Definition nd_elements {T} (a : ndarray T) : list T :=
  tab (nth 0 (nd_shape a) 0) (fun i => nd_mem a (nd_data a + Z.of_nat i * nth 0 (nd_strides a) 0%Z)%Z).

(** array_t<T>::ensure: the same object if the element type matches, else a new contiguous,
    writeable array of converted elements.  [cast] rounds to the element type.
    Simplification: the new array is only modelled for one dimension; of other arrays the
    elements are converted in place. *)
Definition ensure {T} (cast : dtype -> T -> T) (d : dtype) (size : Z) (a : ndarray T) (dflt : T) : ndarray T :=
  if dtype_eqb (nd_dtype a) d then a
  else if nd_ndim a =? 1 then
    let xs := map (cast d) (nd_elements a) in
    NdArray d (fun p => nth (Z.to_nat (p / size)) xs dflt) 0 size (nd_shape a) [size] true true true
  else NdArray d (fun p => cast d (nd_mem a p)) (nd_data a) (nd_itemsize a) (nd_shape a) (nd_strides a) true false false.

(** Conversion of a value to an element type: float and complex<float> round to binary32. *)
Definition cast_real (d : dtype) (v : R) : R := match d with Float32 | Complex64 => rnd32 v | _ => v end.
Definition cast_complex (d : dtype) (v : C) : C := (cast_real d (fst v), cast_real d (snd v)).

Definition size_of (d : dtype) : Z :=
  match d with Float32 => 4 | Float64 => 8 | Complex64 => 8 | Complex128 => 16 | OtherType => 8 end%Z.

(** ** Views of NumPy arrays *)

Definition word : Z := (2 ^ 64)%Z.

(** A one-dimensional view: memory, pointer, element size, extent, stride in elements. *)
Record view (T : Type) := View { v_mem : Z -> T; v_ptr : Z; v_itemsize : Z; v_extent : nat; v_stride : Z }.
Arguments View {T}. Arguments v_mem {T}. Arguments v_ptr {T}. Arguments v_itemsize {T}.
Arguments v_extent {T}. Arguments v_stride {T}.

(** mdspan element access: index * stride in size_t, then pointer arithmetic.  Simplification:
    addresses wrap modulo 2^64, as on the 64-bit targets (C++ calls it undefined). *)
Definition view_get {T} (v : view T) (i : nat) : T :=
  v_mem v ((v_ptr v + v_itemsize v * ((Z.of_nat i * v_stride v) mod word)) mod word)%Z.

Definition view_list {T} (v : view T) : list T := tab (v_extent v) (view_get v).

(** main.cpp:36-45 (strides_match) and 58-66 (make_strides): byte stride over element size,
    ssize_t division (towards zero), converted to size_t. *)
Definition stride_of {T} (a : ndarray T) : Z := ((nth 0 (nd_strides a) 0 ÷ nd_itemsize a) mod word)%Z.

(** pybind11 array::mutable_data: throws for arrays that are not writeable. *)
Definition mutable_data {T} (a : ndarray T) : outcome Z := if nd_writeable a then Ok (nd_data a) else Throw.

(** pybind11 array::shape(0), strides(0): throw for rank 0. *)
Definition has_axis0 {T} (a : ndarray T) : outcome unit := if nd_ndim a =? 0 then Throw else Ok tt.

(** main.cpp:79-89 — to_mdspan_layout_stride<1>: only axis 0 is looked at. *)
Definition to_mdspan_layout_stride {T} (a : ndarray T) : outcome (view T) :=
  _ <- has_axis0 a ;;
  p <- mutable_data a ;;
  Ok (View (nd_mem a) p (nd_itemsize a) (nth 0 (nd_shape a) 0) (stride_of a)).

(** main.cpp:91-114 — as_mdspan_impl<1>: layout_right and layout_left both have stride 1. *)
Definition as_mdspan_impl {T} (a : ndarray T) : outcome (view T) :=
  if nd_c_style a && (stride_of a =? 1)%Z then
    p <- mutable_data a ;; Ok (View (nd_mem a) p (nd_itemsize a) (nth 0 (nd_shape a) 0) 1)
  else if nd_f_style a && (stride_of a =? 1)%Z then
    p <- mutable_data a ;; Ok (View (nd_mem a) p (nd_itemsize a) (nth 0 (nd_shape a) 0) 1)
  else to_mdspan_layout_stride a.

(** main.cpp:116-128 — as_mdspan<1>. *)
Definition as_mdspan {T} (a : ndarray T) : outcome (view T) :=
  if nd_ndim a =? 1 then as_mdspan_impl a else Throw.

(** ** fft, ifft *)

(** std::has_single_bit. *)
Definition has_single_bit (n : nat) : bool := (0 <? n) && (n =? 2 ^ Nat.log2 n).

(** src/neo/fft/norm.hpp:8-14. *)
Inductive norm := NormNone | NormBackward | NormForward | NormOrtho.

(** src/neo/fft/fft.hpp:62-72, 83-93 — out of place with the default plan: copy, then in
    place. *)
Definition fft_out_of_place (dir : direction) (order : nat) (input out : list C) : outcome (list C) :=
  plan <- make_dit2_plan order ;;
  out <- copy (fun v => v) input out ;;
  run_dit2_plan c2c_dit2_v3 plan out dir.

(** main.cpp:130-170 — fft<Complex, Dir>, after argument conversion.  [raw] is the content of
    the memory NumPy hands out for the (uninitialised) result. *)
Definition binding_fft (raw : nat -> C) (dir : direction) (array : ndarray C) (n : option nat) (nm : norm) : outcome (list C) :=
  input <- as_mdspan array ;;
  let size := match n with Some s => s | None => v_extent input end in
  order <- next_order size ;;
  if negb (has_single_bit size) then Throw else
  if (2 ^ 63 <=? Z.of_nat size)%Z then Throw else
  let out := tab size raw in
  out <- fft_out_of_place dir order (view_list input) out ;;
  out <- match dir, nm with
         | Forward, NormForward => scale_c (1 / INR size) out
         | Backward, NormBackward => scale_c (1 / INR size) out
         | _, _ => Ok out
         end ;;
  match nm with
  | NormOrtho => scale_c (1 / sqrt (INR size)) out
  | _ => Ok out
  end.

(** neo/fft/__init__.py:15-19 — NORM_MODE[norm]; an unknown key raises KeyError. *)
Definition norm_mode (s : string) : outcome norm :=
  if String.eqb s "backward" then Ok NormBackward
  else if String.eqb s "ortho" then Ok NormOrtho
  else if String.eqb s "forward" then Ok NormForward
  else Throw.

(** neo/fft/__init__.py:22-25 (fft) and 28-31 (ifft), with the overloads of main.cpp:248-252. *)
Definition py_fft (raw : nat -> C) (dir : direction) (x : ndarray C) (n : option nat) (nm : string) : outcome (list C) :=
  nm <- norm_mode nm ;;
  d <- resolve fft_overloads [nd_dtype x] ;;
  binding_fft raw dir (ensure cast_complex d (size_of d) x C0) n nm.

(** neo/fft/__init__.py:34-37 and main.cpp:219-230. *)
Definition py_rfftfreq (raw : nat -> R) (n : nat) (d : R) : outcome (list R) :=
  if (2 ^ 63 <=? Z.of_nat n)%Z then Throw else rfftfreq_vec (tab n raw) d.

(** ** convolve *)

(** src/neo/convolution/mode.hpp:13-18. *)
Inductive conv_mode := ModeFull | ModeValid | ModeSame.

(** Method argument of the template in main.cpp:172. *)
Inductive conv_method := MethodDirect | MethodFft.

(** main.cpp:172-205 — convolve<Method, Float>, after argument conversion.  The rank of in1
    is tested twice (line 176), the rank of in2 never.  Both operands empty: the size wraps
    and NumPy rejects the negative dimension. *)
Definition binding_convolve (raw : nat -> R) (method : conv_method) (in1 in2 : ndarray R) (mode : conv_mode) : outcome (list R) :=
  if negb (nd_ndim in1 =? 1) || negb (nd_ndim in1 =? 1) then Throw else
  signal <- to_mdspan_layout_stride in1 ;;
  patch <- to_mdspan_layout_stride in2 ;;
  match mode with
  | ModeFull =>
    if v_extent signal + v_extent patch =? 0 then Throw else
    let output := tab (v_extent signal + v_extent patch - 1) raw in
    match method with
    | MethodDirect => direct_convolve_into R 0%R Rplus Rmult (view_list signal) (view_list patch) output
    | MethodFft =>
      out <- fft_convolve (view_list signal) (view_list patch) ;;
      copy (fun v => v) out output
    end
  | _ => Throw
  end.

(** neo/__init__.py:28-32 — CONVOLUTION_MODE[mode]. *)
Definition convolution_mode (s : string) : outcome conv_mode :=
  if String.eqb s "full" then Ok ModeFull
  else if String.eqb s "valid" then Ok ModeValid
  else if String.eqb s "same" then Ok ModeSame
  else Throw.

(** neo/__init__.py:43-48, with the overloads of main.cpp:254-258. *)
Definition py_convolve (raw : nat -> R) (in1 in2 : ndarray R) (mode method : string) : outcome (list R) :=
  mode <- convolution_mode mode ;;
  d <- resolve convolve_overloads [nd_dtype in1; nd_dtype in2] ;;
  let in1 := ensure cast_real d (size_of d) in1 0%R in
  let in2 := ensure cast_real d (size_of d) in2 0%R in
  if String.eqb method "fft" then binding_convolve raw MethodFft in1 in2 mode
  else binding_convolve raw MethodDirect in1 in2 mode.
