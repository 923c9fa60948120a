(** src/neo/convolution/overlap_add_convolver.hpp, for the only pair of template arguments in
    the repository (dense_convolver.hpp:28, upola_convolver_v2): dense_fdl and dense_filter. *)
From Coq Require Import List Arith Bool Reals.
From Verif Require Import Base.Outcome Base.Alias Base.Cplx Model.Fft2 Model.Integers Model.Algorithm
  Model.FftApps Model.Convolution.
Import ListNotations.
Open Scope outcome_scope.

(** src/neo/convolution/overlap_add_convolver.hpp:36-51 — members. *)
Record oac := Oac { ac_block : nat; ac_segments : nat; ac_pos : nat; ac_current : nat; ac_plan : rfft_plan;
  ac_window : list R; ac_overlap : list R; ac_bins : list C; ac_fdl : list (list C); ac_filter : list (list C);
  ac_acc : list C; ac_tmp : list C }.

(** src/neo/convolution/overlap_add_convolver.hpp:30 and 36-51 — default constructor. *)
Definition make_oac : outcome oac :=
  order <- next_order 4 ;;
  plan <- make_rfft_plan order ;;
  let K := 2 ^ order in
  Ok (Oac 2 0 0 0 plan (repeat 0%R K) (repeat 0%R K) (repeat C0 (K / 2 + 1)) [] [] [] []).

(** src/neo/convolution/overlap_add_convolver.hpp:54-69 — filter(); it leaves _input_pos and
    _current_segment alone.  No columns: extent - 1 wraps, UB here. *)
Definition oac_filter (c : oac) (rows cols : nat) (mat : list (list C)) : outcome oac :=
  _ <- guard (0 <? cols) ;;
  let block := cols - 1 in
  order <- next_order (block * 2) ;;
  plan <- make_rfft_plan order ;;
  let K := 2 ^ order in
  f <- dense_filter_filter (ac_filter c) rows cols mat tt ;;
  Ok (Oac block rows (ac_pos c) (ac_current c) plan (repeat 0%R K) (repeat 0%R K) (repeat C0 (K / 2 + 1))
    (repeat (repeat C0 cols) rows) f (repeat C0 cols) (repeat C0 cols)).

(** src/neo/convolution/overlap_add_convolver.hpp:96-108 — the sum over the older partitions. *)
Definition oac_tail (segments current : nat) (line filter : list (list C)) (tmp : list C) : outcome (list C) :=
  tmp <- fill C0 tmp ;;
  '(_, tmp) <- for_range 1 segments (fun filter_index s =>
    let '(fdl_index, tmp) := s in
    let fdl_index := fdl_index + 1 in
    let fdl_index := if segments <=? fdl_index then fdl_index - segments else fdl_index in
    row <- rd line fdl_index ;;
    tmp <- dense_filter_mac filter row filter_index tmp ;;
    Ok (fdl_index, tmp)) (current, tmp) ;;
  Ok tmp.

(** src/neo/convolution/overlap_add_convolver.hpp:85-135 — one round of the loop; [done] is
    num_processed.  _block_size - _input_pos wraps to a huge value when the position is
    larger: then all remaining samples are processed. *)
Definition oac_step (s : oac * list R * nat) : outcome (oac * list R * nat) :=
  let '(c, inout, done) := s in
  let B := ac_block c in
  let pos := ac_pos c in
  let K := 2 ^ rf_order (ac_plan c) in
  let rest := length inout - done in
  let n := if B <? pos then rest else Nat.min rest (B - pos) in
  sub <- slice inout done (done + n) ;;
  window <- copy_into sub (ac_window c) pos (pos + n) ;;
  '(plan, bins) <- rfft_forward (ac_plan c) window (ac_bins c) ;;
  line <- dense_fdl_insert (ac_fdl c) bins (ac_current c) ;;
  tmp <- (if pos =? 0 then oac_tail (ac_segments c) (ac_current c) line (ac_filter c) (ac_tmp c) else Ok (ac_tmp c)) ;;
  acc <- copy (fun v => v) tmp (ac_acc c) ;;
  row <- rd line (ac_current c) ;;
  acc <- dense_filter_mac (ac_filter c) row 0 acc ;;
  bins <- copy (fun v => v) acc bins ;;
  '(plan, window) <- rfft_backward plan bins window ;;
  window <- scale_r (1 / INR K)%R window ;;
  sub_window <- slice window pos (pos + n) ;;
  sub_overlap <- slice (ac_overlap c) pos (pos + n) ;;
  sub <- add_r (Other sub_window) (Other sub_overlap) sub ;;
  inout <- splice inout done sub ;;
  if pos + n =? B then
    padding <- slice window B (B * 2) ;;
    overlap <- copy_into padding (ac_overlap c) 0 B ;;
    window <- fill 0%R window ;;
    let current := if 0 <? ac_current c then ac_current c - 1 else ac_segments c - 1 in
    Ok (Oac B (ac_segments c) 0 current plan window overlap bins line (ac_filter c) acc tmp, inout, done + n)
  else
    Ok (Oac B (ac_segments c) (pos + n) (ac_current c) plan window (ac_overlap c) bins line (ac_filter c) acc tmp,
        inout, done + n).

(** src/neo/convolution/overlap_add_convolver.hpp:71-136 — operator(); the assert on the
    length is a release-mode no-op.  Every round handles at least one sample when the block
    size is not 0; a loop that never ends (block size 0) is UB here. *)
Definition oac_run (c : oac) (inout : list R) : outcome (oac * list R) :=
  '(c, inout, _) <- while_fuel (length inout) (fun s => snd s <? length inout) oac_step (c, inout, 0) ;;
  Ok (c, inout).

(** A user's loop: one call after the other. *)
Fixpoint oac_stream (c : oac) (calls : list (list R)) : outcome (oac * list (list R)) :=
  match calls with
  | [] => Ok (c, [])
  | x :: t => '(c, y) <- oac_run c x ;; '(c, ys) <- oac_stream c t ;; Ok (c, y :: ys)
  end.
