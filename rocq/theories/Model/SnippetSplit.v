(** Model of the split-complex plan of /repo/extra/snippet/split_fft.cpp and of the two
    objects the snippet times.  Floating-point numbers are exact reals; indices are
    unbounded naturals (int in the code: the orders used are 4 to 13). *)
From Coq Require Import List Arith Bool Reals.
From Verif Require Import Base.Outcome Base.Cplx Spec.Dft Model.Fft2 Model.Snippets.
Import ListNotations.
Open Scope outcome_scope.

(** extra/snippet/split_fft.cpp:256-265 and 292-301 — one butterfly on the four numbers
    of a pair: both points are read first, then the new first point is stored, then the
    second.  [w] is the twiddle (none at stage 0). *)
Definition ss_butterfly (w : option C) (i1 i2 : nat) (x : list R * list R) : outcome (list R * list R) :=
  let '(xre, xim) := x in
  a <- rd xre i1 ;; b <- rd xim i1 ;;
  c <- rd xre i2 ;; d <- rd xim i2 ;;
  let x1 := (a, b) : C in
  let x2 := (c, d) : C in
  let t := match w with Some tw => (tw * x2)%C | None => x2 end in
  let xn1 := (x1 + t)%C in
  xre <- wr xre i1 (fst xn1) ;;
  xim <- wr xim i1 (snd xn1) ;;
  let xn2 := (x1 - t)%C in
  xre <- wr xre i2 (fst xn2) ;;
  xim <- wr xim i2 (snd xn2) ;;
  Ok (xre, xim).

(** extra/snippet/split_fft.cpp:248-266 — the loop of stage 0. *)
Definition ss_stage0 (order : nat) (x : list R * list R) : outcome (list R * list R) :=
  for_step 0 (Nat.shiftl 1 order) 2 (fun k x => ss_butterfly None k (k + 1) x) x.

(** extra/snippet/split_fft.cpp:279-303 — the loops of a later stage. *)
Definition ss_stage (order stage : nat) (wre wim : list R) (x : list R * list R)
  : outcome (list R * list R) :=
  let stage_length := 2 ^ stage in
  let stride := 2 ^ (stage + 1) in
  let tw_stride := 2 ^ (order - stage - 1) in
  for_step 0 (Nat.shiftl 1 order) stride (fun k x =>
    for_range 0 stage_length (fun pair x =>
      let twi := pair * tw_stride in
      a <- rd wre twi ;; b <- rd wim twi ;;
      ss_butterfly (Some (a, b)) (k + pair) (k + pair + stage_length) x) x) x.

(** extra/snippet/split_fft.cpp:237-316 — split_fft_radix2_dit<Float, Order, Stage>: the
    three overloads (stage 0, later stages, end); [todo] is Order - Stage.  For Order 0
    two overloads match (no compilation): UB. *)
Fixpoint ss_stages (order stage todo : nat) (x : list R * list R) (wre wim : list R)
  : outcome (list R * list R) :=
  match todo with
  | O => if stage =? 0 then UB else Ok x
  | S todo =>
    x <- (if stage =? 0 then ss_stage0 order x else ss_stage order stage wre wim x) ;;
    ss_stages order (stage + 1) todo x wre wim
  end.

(** extra/snippet/split_fft.cpp:351-356 — members of static_split_fft_plan. *)
Record ss_plan := {
  ss_order : nat;
  ss_wfre : list R; ss_wfim : list R;
  ss_wbre : list R; ss_wbim : list R;
  ss_rev : list nat
}.

(** extra/snippet/split_fft.cpp:321-334 — the constructor (and 356, the index table). *)
Definition make_ss_plan (order : nat) : outcome ss_plan :=
  let size := Nat.shiftl 1 order in
  rev <- bitrev_make size ;;
  tw <- make_twiddle_lut_radix2 size Forward ;;
  let z := repeat 0%R (length tw) in
  for_range 0 (length tw) (fun i p =>
    v <- rd tw i ;;
    fre <- wr (ss_wfre p) i (fst v) ;;
    fim <- wr (ss_wfim p) i (snd v) ;;
    bre <- wr (ss_wbre p) i (fst v) ;;
    bim <- wr (ss_wbim p) i (- snd v)%R ;;
    Ok {| ss_order := ss_order p; ss_wfre := fre; ss_wfim := fim; ss_wbre := bre; ss_wbim := bim;
          ss_rev := ss_rev p |})
    {| ss_order := order; ss_wfre := z; ss_wfim := z; ss_wbre := z; ss_wbim := z; ss_rev := rev |}.

(** extra/snippet/split_fft.cpp:136-145 — bitrevorder(xre, xim, index): the loop runs
    over xre. *)
Definition ss_bitrevorder (x : list R * list R) (index : list nat) : outcome (list R * list R) :=
  for_range 0 (length (fst x)) (fun i x =>
    t <- rd index i ;;
    if i <? t then
      re <- swap (fst x) i t ;;
      im <- swap (snd x) i t ;;
      Ok (re, im)
    else Ok x) x.

(** extra/snippet/split_fft.cpp:340-349 — operator()(xre, xim, dir). *)
Definition run_ss_plan (p : ss_plan) (x : list R * list R) (dir : direction) : outcome (list R * list R) :=
  x <- ss_bitrevorder x (ss_rev p) ;;
  match dir with
  | Forward => ss_stages (ss_order p) 0 (ss_order p) x (ss_wfre p) (ss_wfim p)
  | Backward => ss_stages (ss_order p) 0 (ss_order p) x (ss_wbre p) (ss_wbim p)
  end.

(** extra/snippet/split_fft.cpp:368-375 — interleave_benchmark::operator(): forward,
    backward, scale the buffer by 1 / 2^Order.  [static_fft] builds its plan anew, the
    code keeps it. *)
Definition interleave_benchmark_call (order : nat) (buffer : list C) : outcome (list C) :=
  buffer <- static_fft order buffer Forward ;;
  buffer <- static_fft order buffer Backward ;;
  let f := (1 / INR (Nat.shiftl 1 order))%R in
  Ok (map (fun c : C => (fst c * f, snd c * f)%R) buffer).

(** extra/snippet/split_fft.cpp:392-400 — split_benchmark::operator(). *)
Definition split_benchmark_call (p : ss_plan) (buf : list R * list R) : outcome (list R * list R) :=
  buf <- run_ss_plan p buf Forward ;;
  buf <- run_ss_plan p buf Backward ;;
  let f := (1 / INR (Nat.shiftl 1 (ss_order p)))%R in
  Ok (map (fun c => c * f)%R (fst buf), map (fun c => c * f)%R (snd buf)).

(** extra/snippet/split_fft.cpp:28-38 — timeit calls the object 3 times and then once per
    iteration (50000 in the code); only the object's state is modelled, not the clock. *)
Definition timeit_state {S} (func : S -> outcome S) (iterations : nat) (s : S) : outcome S :=
  s <- func s ;; s <- func s ;; s <- func s ;;
  for_range 0 iterations (fun _ s => func s) s.
