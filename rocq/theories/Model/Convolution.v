(** Convolution: src/neo/convolution.  Floats are exact reals. *)
From Coq Require Import List Arith Bool Reals.
From Verif Require Import Base.Outcome Base.Alias Base.Cplx Spec.Dft Model.Fft2 Model.Integers Model.Algorithm
  Model.FftApps Model.Csr.
Import ListNotations.
Open Scope outcome_scope.

(** ** Direct convolution *)

Section Direct.
Variable T : Type.
Variable zero : T.
Variables add mul : T -> T -> T.

(** src/neo/convolution/direct_convolve.hpp:16-41 and, with the operands exchanged, 43-58:
    [a] is the longer operand.  [mm] is the output size, [i] is k - l + 1 in the second loop. *)
Definition direct_half (a b : list T) (mm : nat) (out : list T) : outcome (list T) :=
  let n := length a in
  let l := length b in
  out <- for_range 0 l (fun k out =>
    out <- wr out k zero ;;
    for_range 0 (k + 1) (fun m out =>
      o <- rd out k ;; x <- rd a m ;; y <- rd b (k - m) ;; wr out k (add o (mul x y))) out) out ;;
  '(i, out) <- for_range l mm (fun k s =>
    let '(i, out) := s in
    out <- wr out k zero ;;
    let i := i + 1 in
    let t1 := l + i in
    let tmin := Nat.min t1 n in
    out <- for_range i tmin (fun m out =>
      o <- rd out k ;; x <- rd a m ;; y <- rd b (k - m) ;; wr out k (add o (mul x y))) out ;;
    Ok (i, out)) (0, out) ;;
  Ok out.

(** src/neo/convolution/direct_convolve.hpp:16-59 — into an output array.  Both operands
    empty: the output size wraps to 2^64-1 and the second loop leaves the output. *)
Definition direct_convolve_into (signal patch out : list T) : outcome (list T) :=
  _ <- guard (0 <? length signal + length patch) ;;
  let mm := length signal + length patch - 1 in
  if length patch <=? length signal then direct_half signal patch mm out else direct_half patch signal mm out.

(** src/neo/convolution/direct_convolve.hpp:62-72 — allocating; mdarray elements start as
    zero.  Both operands empty: allocation of 2^64-1 elements fails. *)
Definition direct_convolve (signal patch : list T) : outcome (list T) :=
  if length signal + length patch =? 0 then Throw
  else direct_convolve_into signal patch (repeat zero (length signal + length patch - 1)).
End Direct.

(** ** Helpers: sub-ranges of arrays *)

(** copy(in, submdspan(out, {lo, hi})) — src/neo/algorithm/copy.hpp:18-28 on a sub-range. *)
Definition copy_into {T} (inp out : list T) (lo hi : nat) : outcome (list T) :=
  sub <- slice out lo hi ;;
  sub <- copy (fun v => v) inp sub ;;
  splice out lo sub.

(** fill(submdspan(out, {lo, hi}), v) — src/neo/algorithm/fill.hpp:10-14 on a sub-range. *)
Definition fill_into {T} (v : T) (out : list T) (lo hi : nat) : outcome (list T) :=
  sub <- slice out lo hi ;;
  sub <- fill v sub ;;
  splice out lo sub.

(** ** FFT convolution *)

(** src/neo/convolution/fft_convolver.hpp:70-76 — members. *)
Record fft_convolver := FftConvolver { fc_signal : nat; fc_patch : nat; fc_plan : rfft_plan;
  fc_tmp : list R; fc_sspec : list C; fc_pspec : list C }.

(** src/neo/convolution/fft_convolver.hpp:22-26 and 70-76 — constructor; the asserts (sizes
    above 1) are release-mode no-ops. *)
Definition make_fft_convolver (s p : nat) : outcome fft_convolver :=
  _ <- guard (0 <? s + p) ;;
  order <- next_order (s + p - 1) ;;
  plan <- make_rfft_plan order ;;
  let K := 2 ^ order in
  Ok (FftConvolver s p plan (repeat 0%R K) (repeat C0 (K / 2 + 1)) (repeat C0 (K / 2 + 1))).

(** src/neo/convolution/fft_convolver.hpp:54-60 — zero_pad_and_transform_forward. *)
Definition fc_forward (plan : rfft_plan) (tmp : list R) (inp : list R) (out : list C)
  : outcome (rfft_plan * list R * list C) :=
  tmp <- copy_into inp tmp 0 (length inp) ;;
  tmp <- fill_into 0%R tmp (length inp) (length tmp) ;;
  '(plan, out) <- rfft_forward plan tmp out ;;
  Ok (plan, tmp, out).

(** src/neo/convolution/fft_convolver.hpp:37-51 and 62-68 — operator(). *)
Definition fft_convolver_run (c : fft_convolver) (signal patch out : list R) : outcome (fft_convolver * list R) :=
  '(plan, tmp, ss) <- fc_forward (fc_plan c) (fc_tmp c) signal (fc_sspec c) ;;
  '(plan, tmp, ps) <- fc_forward plan tmp patch (fc_pspec c) ;;
  ss <- multiply_c Self (Other ps) ss ;;
  '(plan, tmp) <- rfft_backward plan ss tmp ;;
  tmp <- scale_r (1 / INR (2 ^ rf_order plan))%R tmp ;;
  res <- slice tmp 0 (fc_signal c + fc_patch c - 1) ;;
  out <- copy (fun v => v) res out ;;
  Ok (FftConvolver (fc_signal c) (fc_patch c) plan tmp ss ps, out).

(** src/neo/convolution/fft_convolver.hpp:79-93 — fft_convolve. *)
Definition fft_convolve (signal patch : list R) : outcome (list R) :=
  if (length signal =? 0) || (length patch =? 0) then Ok [] else
  c <- make_fft_convolver (length signal) (length patch) ;;
  '(_, out) <- fft_convolver_run c signal patch (repeat 0%R (length signal + length patch - 1)) ;;
  Ok out.

(** ** Overlap-save *)

(** src/neo/convolution/overlap_save.hpp:51-57 — members. *)
Record overlap_save := OverlapSave { os_block : nat; os_filter : nat; os_plan : rfft_plan;
  os_window : list R; os_real : list R; os_cplx : list C }.

(** src/neo/convolution/overlap_save.hpp:51-64 — constructor.  Simplification: sizes that
    sum to 0 (the size computation wraps) are UB. *)
Definition make_overlap_save (B F : nat) : outcome overlap_save :=
  _ <- guard (0 <? B + F) ;;
  order <- next_order (B + F - 1) ;;
  plan <- make_rfft_plan order ;;
  let K := 2 ^ order in
  Ok (OverlapSave B F plan (repeat 0%R K) (repeat 0%R K) (repeat C0 K)).

(** src/neo/convolution/overlap_save.hpp:37-49 — slide_window_left; step 0 divides by zero. *)
Definition slide_window_left (step : nat) (window : list R) : outcome (list R) :=
  _ <- guard (negb (step =? 0)) ;;
  let num_steps := length window / step in
  for_range 0 (num_steps - 1) (fun i window =>
    let dest_idx := i * step in
    let src_idx := dest_idx + step in
    src_block <- slice window src_idx (src_idx + step) ;;
    copy_into src_block window dest_idx src_idx) window.

(** src/neo/convolution/overlap_save.hpp:84-112 — operator().  [callback] works on the bins
    in place and on its own captured state. *)
Definition overlap_save_run {St} (o : overlap_save) (block : list R)
    (callback : list C -> St -> outcome (list C * St)) (st : St) : outcome (overlap_save * list R * St) :=
  let K := 2 ^ rf_order (os_plan o) in
  let B := os_block o in
  _ <- guard (B <=? K) ;;
  window <- slide_window_left B (os_window o) ;;
  window <- copy_into block window (K - B) K ;;
  '(plan, cbuf) <- rfft_forward (os_plan o) window (os_cplx o) ;;
  coeffs <- slice cbuf 0 (K / 2 + 1) ;;
  '(coeffs, st) <- callback coeffs st ;;
  cbuf <- splice cbuf 0 coeffs ;;
  '(plan, rbuf) <- rfft_backward plan cbuf (os_real o) ;;
  rbuf <- scale_r (1 / INR K)%R rbuf ;;
  keep <- slice rbuf (K - B) K ;;
  block <- copy (fun v => v) keep block ;;
  Ok (OverlapSave B (os_filter o) plan window rbuf cbuf, block, st).

(** ** Overlap-add *)

(** src/neo/convolution/overlap_add.hpp:40-50 — members. *)
Record overlap_add := OverlapAdd { oa_block : nat; oa_filter : nat; oa_plan : rfft_plan;
  oa_window : list R; oa_spectrum : list C; oa_overlap : list R }.

(** src/neo/convolution/overlap_add.hpp:40-57 — constructor (sizes summing to 0: UB). *)
Definition make_overlap_add (B F : nat) : outcome overlap_add :=
  _ <- guard (0 <? B + F) ;;
  order <- next_order (B + F - 1) ;;
  plan <- make_rfft_plan order ;;
  let K := 2 ^ order in
  Ok (OverlapAdd B F plan (repeat 0%R K) (repeat C0 (K / 2 + 1)) (repeat 0%R B)).

(** src/neo/convolution/overlap_add.hpp:77-107 — operator(). *)
Definition overlap_add_run {St} (o : overlap_add) (block : list R)
    (callback : list C -> St -> outcome (list C * St)) (st : St) : outcome (overlap_add * list R * St) :=
  let K := 2 ^ rf_order (oa_plan o) in
  let B := oa_block o in
  window <- copy_into block (oa_window o) 0 B ;;
  window <- fill_into 0%R window B (B * 2) ;;
  '(plan, spectrum) <- rfft_forward (oa_plan o) window (oa_spectrum o) ;;
  '(spectrum, st) <- callback spectrum st ;;
  '(plan, window) <- rfft_backward plan spectrum window ;;
  window <- scale_r (1 / INR K)%R window ;;
  signal <- slice window 0 B ;;
  block <- add_r (Other signal) (Other (oa_overlap o)) block ;;
  padding <- slice window B (B * 2) ;;
  overlap <- copy (fun v => v) padding (oa_overlap o) ;;
  Ok (OverlapAdd B (oa_filter o) plan window spectrum overlap, block, st).

(** ** Frequency delay line index *)

(** src/neo/convolution/fdl_index.hpp:38-40 — members. *)
Record fdl_index := FdlIndex { fi_num : nat; fi_pos : nat }.

(** src/neo/convolution/fdl_index.hpp:19 — constructor. *)
Definition make_fdl_index (n : nat) : fdl_index := FdlIndex n 0.

(** src/neo/convolution/fdl_index.hpp:24-36 — operator(); [copy_cb] and [mul_cb] are the two
    callbacks, [st] what they capture.  Simplification: no wrap of 2 * num_segments. *)
Definition fdl_index_run {St} (x : fdl_index) (copy_cb : nat -> St -> outcome St)
    (mul_cb : nat -> nat -> St -> outcome St) (st : St) : outcome (fdl_index * St) :=
  st <- copy_cb (fi_pos x) st ;;
  st <- for_range 0 (fi_num x) (fun segment st =>
    let filter_index := (fi_pos x + fi_num x - segment) mod fi_num x in
    mul_cb segment filter_index st) st ;;
  let write_pos := fi_pos x + 1 in
  Ok (FdlIndex (fi_num x) (if fi_num x <=? write_pos then 0 else write_pos), st).

(** ** Delay lines and filters: the template arguments of uniform_partitioned_convolver *)

(** A delay line type: constructor from extents, insert, operator[]. *)
Record fdl_type := FdlType { fdl_obj : Type; fdl_row : Type;
  fdl_make : nat -> nat -> fdl_obj;
  fdl_insert : fdl_obj -> list C -> nat -> outcome fdl_obj;
  fdl_at : fdl_obj -> nat -> outcome fdl_row }.

(** A filter type for delay line rows [Row]: default constructor, filter(matrix, args),
    operator(), and its accumulator: constructor from the number of bins, filling with zero,
    and the copy to the bins at the end of the callback. *)
Record filter_type (Row : Type) := FilterType { flt_obj : Type; flt_args : Type; flt_acc : Type;
  flt_default : flt_obj;
  flt_filter : flt_obj -> nat -> nat -> list (list C) -> flt_args -> outcome flt_obj;
  flt_mac : flt_obj -> Row -> nat -> flt_acc -> outcome flt_acc;
  acc_default : flt_acc;
  acc_make : nat -> flt_acc;
  acc_fill : flt_acc -> outcome flt_acc;
  acc_copy : flt_acc -> list C -> outcome (list C) }.
Arguments flt_obj {Row}. Arguments flt_args {Row}. Arguments flt_acc {Row}. Arguments flt_default {Row}.
Arguments flt_filter {Row}. Arguments flt_mac {Row}. Arguments acc_default {Row}. Arguments acc_make {Row}.
Arguments acc_fill {Row}. Arguments acc_copy {Row}.

(** src/neo/convolution/dense_fdl.hpp:13-34 — dense_fdl. *)
Definition dense_fdl_insert (f : list (list C)) (inp : list C) (i : nat) : outcome (list (list C)) :=
  row <- rd f i ;; row <- copy (fun v => v) inp row ;; wr f i row.
Definition dense_fdl : fdl_type :=
  FdlType (list (list C)) (list C) (fun r c => repeat (repeat C0 c) r) dense_fdl_insert (fun f i => rd f i).

(** src/neo/algorithm/copy.hpp:18-35 (rank 2) on matrices stored as rows, with an element
    conversion. *)
Definition copy_rows {A B} (conv : A -> B) (rows cols : nat) (inp : list (list A)) (out : list (list B))
  : outcome (list (list B)) :=
  for_range 0 rows (fun i out =>
    for_range 0 cols (fun j out =>
      irow <- rd inp i ;; v <- rd irow j ;;
      orow <- rd out i ;; orow <- wr orow j (conv v) ;; wr out i orow) out) out.

(** src/neo/convolution/dense_filter.hpp:16-39 — dense_filter. *)
Definition dense_filter_filter (_ : list (list C)) (rows cols : nat) (mat : list (list C)) (_ : unit)
  : outcome (list (list C)) :=
  copy_rows (fun v => v) rows cols mat (repeat (repeat C0 cols) rows).
Definition dense_filter_mac (f : list (list C)) (row : list C) (i : nat) (acc : list C) : outcome (list C) :=
  sub <- rd f i ;; multiply_add_c (Other row) (Other sub) Self acc.
Definition dense_filter : filter_type (list C) :=
  FilterType (list C) (list (list C)) unit (list C) [] dense_filter_filter dense_filter_mac
    [] (fun n => repeat C0 n) (fill C0) (fun acc out => copy (fun v => v) acc out).

(** src/neo/convolution/sparse_filter.hpp:15-38 — sparse_filter; the argument of filter() is
    the predicate selecting the stored bins. *)
Definition sparse_filter_filter (_ : csr C) (rows cols : nat) (mat : list (list C)) (pred : nat -> nat -> C -> bool)
  : outcome (csr C) := csr_build C0 rows cols mat pred.
Definition sparse_filter_mac (f : csr C) (row : list C) (i : nat) (acc : list C) : outcome (list C) :=
  csr_multiply_add Cmul Cadd (Other row) f i Self acc.
Definition sparse_filter : filter_type (list C) :=
  FilterType (list C) (csr C) (nat -> nat -> C -> bool) (list C) (csr_empty 0 0) sparse_filter_filter
    sparse_filter_mac [] (fun n => repeat C0 n) (fill C0) (fun acc out => copy (fun v => v) acc out).

(** src/neo/convolution/dense_fdl.hpp:37-63 — dense_split_fdl: a plane of real and a plane
    of imaginary parts. *)
Definition split_fdl_insert (f : list (list R) * list (list R)) (inp : list C) (i : nat)
  : outcome (list (list R) * list (list R)) :=
  re <- rd (fst f) i ;; im <- rd (snd f) i ;;
  '(re, im) <- copy_to_split inp (re, im) ;;
  fre <- wr (fst f) i re ;; fim <- wr (snd f) i im ;;
  Ok (fre, fim).
Definition dense_split_fdl : fdl_type :=
  FdlType (list (list R) * list (list R)) (list R * list R)
    (fun r c => (repeat (repeat 0%R c) r, repeat (repeat 0%R c) r)) split_fdl_insert
    (fun f i => re <- rd (fst f) i ;; im <- rd (snd f) i ;; Ok (re, im)).

(** src/neo/algorithm/multiply_add.hpp:27-69 and 330-367 — multiply_add(x, y, z, z) on six
    separate rows of equal length: the rows are laid out one after the other.  [lanes]: the
    SIMD loop with that many lanes, or the scalar loop. *)
Definition split_mac_rows (lanes : option nat) (x y z : list R * list R) : outcome (list R * list R) :=
  let n := length (fst x) in
  _ <- guard ((length (snd x) =? n) && (length (fst y) =? n) && (length (snd y) =? n) &&
              (length (fst z) =? n) && (length (snd z) =? n)) ;;
  let mem := fst x ++ snd x ++ fst y ++ snd y ++ fst z ++ snd z in
  mem <- match lanes with
         | None => split_multiply_add 0 n (2 * n) (3 * n) (4 * n) (5 * n) (4 * n) (5 * n) n mem
         | Some inc => simd_multiply_add inc 0 n (2 * n) (3 * n) (4 * n) (5 * n) (4 * n) (5 * n) n mem
         end ;;
  re <- slice mem (4 * n) (5 * n) ;; im <- slice mem (5 * n) (6 * n) ;;
  Ok (re, im).

(** src/neo/convolution/dense_filter.hpp:42-82 — dense_split_filter. *)
Definition split_filter_filter (_ : list (list R) * list (list R)) (rows cols : nat) (mat : list (list C)) (_ : unit)
  : outcome (list (list R) * list (list R)) :=
  for_range 0 rows (fun i f =>
    for_range 0 cols (fun j f =>
      row <- rd mat i ;; v <- rd row j ;;
      re <- rd (fst f) i ;; re <- wr re j (fst v) ;; fre <- wr (fst f) i re ;;
      im <- rd (snd f) i ;; im <- wr im j (snd v) ;; fim <- wr (snd f) i im ;;
      Ok (fre, fim)) f) (repeat (repeat 0%R cols) rows, repeat (repeat 0%R cols) rows).
Definition split_filter_mac (lanes : option nat) (f : list (list R) * list (list R)) (row : list R * list R)
  (i : nat) (acc : list R * list R) : outcome (list R * list R) :=
  re <- rd (fst f) i ;; im <- rd (snd f) i ;;
  split_mac_rows lanes row (re, im) acc.

(** src/neo/convolution/uniform_partitioned_convolver.hpp:59-63 — copy of the split
    accumulator to the bins. *)
Definition split_acc_copy (acc : list R * list R) (inout : list C) : outcome (list C) :=
  for_range 0 (length inout) (fun i inout =>
    re <- rd (fst acc) i ;; im <- rd (snd acc) i ;; wr inout i (re, im)) inout.

Definition dense_split_filter (lanes : option nat) : filter_type (list R * list R) :=
  FilterType (list R * list R) (list (list R) * list (list R)) unit (list R * list R) ([], [])
    split_filter_filter (split_filter_mac lanes) ([], []) (fun n => (repeat 0%R n, repeat 0%R n))
    (fun acc => re <- fill 0%R (fst acc) ;; im <- fill 0%R (snd acc) ;; Ok (re, im)) split_acc_copy.

(** ** Uniformly partitioned convolver *)

(** The overlap classes as template arguments. *)
Record overlap_type := OverlapType { ov_obj : Type;
  ov_make : nat -> nat -> outcome ov_obj;
  ov_run : forall St : Type, ov_obj -> list R -> (list C -> St -> outcome (list C * St)) -> St ->
           outcome (ov_obj * list R * St) }.
Definition ols : overlap_type := OverlapType overlap_save make_overlap_save (@overlap_save_run).
Definition ola : overlap_type := OverlapType overlap_add make_overlap_add (@overlap_add_run).

(** A user's loop: an overlap object called on one block after the other. *)
Fixpoint ov_stream (ov : overlap_type) {St} (callback : list C -> St -> outcome (list C * St)) (o : ov_obj ov) (st : St)
  (blocks : list (list R)) : outcome (ov_obj ov * list (list R) * St) :=
  match blocks with
  | [] => Ok (o, [], st)
  | b :: t =>
    '(o, y, st) <- ov_run ov St o b callback st ;;
    '(o, ys, st) <- ov_stream ov callback o st t ;;
    Ok (o, y :: ys, st)
  end.

(** A user's callback: multiply the bins by a fixed transfer function,
    multiply(inout, transfer, inout) — src/neo/algorithm/multiply.hpp:15-20. *)
Definition transfer_callback (H : list C) (inout : list C) (st : unit) : outcome (list C * unit) :=
  inout <- multiply_c Self (Other H) inout ;; Ok (inout, st).

Section Upc.
Variable ov : overlap_type.
Variable fdl : fdl_type.
Variable flt : filter_type (fdl_row fdl).

(** src/neo/convolution/uniform_partitioned_convolver.hpp:27-34 — members. *)
Record upc := Upc { u_overlap : ov_obj ov; u_fdl : fdl_obj fdl; u_indexer : fdl_index;
  u_filter : flt_obj flt; u_acc : flt_acc flt }.

(** src/neo/convolution/uniform_partitioned_convolver.hpp:22 and 27-34 — default constructor. *)
Definition make_upc : outcome upc :=
  o <- ov_make ov 1 1 ;;
  Ok (Upc o (fdl_make fdl 0 0) (FdlIndex 0 0) (flt_default flt) (acc_default flt)).

(** src/neo/convolution/uniform_partitioned_convolver.hpp:37-45 — filter(); no columns:
    extent - 1 wraps, UB here. *)
Definition upc_filter (c : upc) (rows cols : nat) (mat : list (list C)) (args : flt_args flt) : outcome upc :=
  _ <- guard (0 <? cols) ;;
  o <- ov_make ov (cols - 1) (cols - 1) ;;
  f <- flt_filter flt (u_filter c) rows cols mat args ;;
  Ok (Upc o (fdl_make fdl rows cols) (make_fdl_index rows) f (acc_make flt cols)).

(** src/neo/convolution/uniform_partitioned_convolver.hpp:50-64 — the callback; it captures
    the delay line, the indexer and the accumulator. *)
Definition upc_callback (f : flt_obj flt) (inout : list C) (st : fdl_obj fdl * fdl_index * flt_acc flt)
  : outcome (list C * (fdl_obj fdl * fdl_index * flt_acc flt)) :=
  let '(line, idx, acc) := st in
  acc <- acc_fill flt acc ;;
  '(idx, (line, acc)) <- fdl_index_run idx
    (fun i s => line <- fdl_insert fdl (fst s) inout i ;; Ok (line, snd s))
    (fun i k s => row <- fdl_at fdl (fst s) i ;; acc <- flt_mac flt f row k (snd s) ;; Ok (fst s, acc))
    (line, acc) ;;
  inout <- acc_copy flt acc inout ;;
  Ok (inout, (line, idx, acc)).

(** src/neo/convolution/uniform_partitioned_convolver.hpp:47-65 — operator(). *)
Definition upc_run (c : upc) (block : list R) : outcome (upc * list R) :=
  '(o, block, (line, idx, acc)) <- ov_run ov _ (u_overlap c) block (upc_callback (u_filter c))
    (u_fdl c, u_indexer c, u_acc c) ;;
  Ok (Upc o line idx (u_filter c) acc, block).

(** A user's loop: the convolver called on one block after the other. *)
Fixpoint upc_stream (c : upc) (blocks : list (list R)) : outcome (upc * list (list R)) :=
  match blocks with
  | [] => Ok (c, [])
  | b :: t => '(c, o) <- upc_run c b ;; '(c, os) <- upc_stream c t ;; Ok (c, o :: os)
  end.
End Upc.
Arguments Upc {ov fdl flt}. Arguments u_overlap {ov fdl flt}. Arguments u_fdl {ov fdl flt}.
Arguments u_indexer {ov fdl flt}. Arguments u_filter {ov fdl flt}. Arguments u_acc {ov fdl flt}.
Arguments upc_filter {ov fdl flt}. Arguments upc_run {ov fdl flt}. Arguments upc_stream {ov fdl flt}.
Arguments upc_callback {fdl flt}.

(** src/neo/convolution/dense_convolver.hpp and sparse_convolver.hpp — the aliases. *)
Definition upols_convolver := upc ols dense_fdl dense_filter.
Definition upola_convolver := upc ola dense_fdl dense_filter.
Definition split_upols_convolver lanes := upc ols dense_split_fdl (dense_split_filter lanes).
Definition split_upola_convolver lanes := upc ola dense_split_fdl (dense_split_filter lanes).
Definition sparse_upols_convolver := upc ols dense_fdl sparse_filter.
Definition sparse_upola_convolver := upc ola dense_fdl sparse_filter.
