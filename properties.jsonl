{"id": "C01", "title": "bit_ceil rounds up to the least power of two", "statement": "For every unsigned type (8/16/32/64 bit) and every value x with 1 <= x <= 2^(w-1), the portable bit_ceil returns the smallest power of two that is >= x. Outside that range it returns 0 (for x = 0 std::bit_ceil would return 1, so the two disagree there).", "quantifier": "all values of all four unsigned widths", "why_tests_cant": "2^64 inputs; tests sample a handful of literals", "anchors": ["src/neo/bit/bit_ceil.hpp: bit_ceil, detail::bit_ceil_fallback"]}
{"id": "C02", "title": "Transform orders and sizes are inverse and minimal", "statement": "bit_log2(x) is floor(log2 x) for every x >= 1. next_order(n) is the least k with 2^k >= n for every 1 <= n <= 2^63, and size(order k) = 2^k for k < 64, so next_order(size(k)) = k and size(next_order(n)) >= n with size(next_order(n)) < 2n for n >= 2.", "quantifier": "all 64-bit sizes and orders", "why_tests_cant": "64-bit input space", "anchors": ["src/neo/bit/bit_log2.hpp: bit_log2", "src/neo/fft/order.hpp: size, next_order"]}
{"id": "C03", "title": "ipow is exponentiation", "statement": "ipow(base, exponent) returns base^exponent whenever that value fits the integer type, and the compile-time overloads (shifts for bases 2, 4, 8, 16, 32) return the same value. When base^exponent does not fit a signed type of int's width or more, the loop is undefined behaviour; the shift overloads may instead return a wrong value (ipow<2>(31) is INT_MIN for int, 0 for exponents 8..31 of an 8-bit type).", "quantifier": "all bases, all exponents, all integer types", "why_tests_cant": "unbounded exponents and bases", "anchors": ["src/neo/math/ipow.hpp: ipow"]}
{"id": "C04", "title": "idiv is the ceiling quotient", "statement": "idiv(x, y) = ceil(x / y) for all non-negative x and positive y such that x + y - 1 fits the type (for signed types of int's width or more, x + y must fit; otherwise the behaviour is undefined); when x + y - 1 wraps (unsigned) the result is too small.", "quantifier": "all pairs of integers", "why_tests_cant": "quadratically many 64-bit inputs", "anchors": ["src/neo/math/idiv.hpp: idiv"]}
{"id": "C05", "title": "Saturating fixed-point add, subtract, negate", "statement": "For q7 and q15 (and every 8/16-bit storage with any number of fractional bits) a+b, a-b and -a never leave the storage range and equal the exact integer result clamped to the range; comparisons agree with comparisons of the represented rationals.", "quantifier": "all pairs of stored values and all fractional bit counts", "why_tests_cant": "2^32 pairs for q15 alone", "anchors": ["src/neo/fixed_point/fixed_point.hpp: operator+, operator-, operator<, ..., detail::saturate"]}
{"id": "C06", "title": "Fixed-point multiplication truncates and saturates", "statement": "For 8/16-bit storage, a*b equals floor(a*b / 2^F) clamped to the range; unless clamped, the represented value is below the exact product by less than one unit in the last place; only the most negative times itself clamps for q7/q15.", "quantifier": "all pairs of stored values", "why_tests_cant": "2^32 pairs for q15", "anchors": ["src/neo/fixed_point/fixed_point.hpp: operator*"]}
{"id": "C07", "title": "Float <-> fixed-point conversion", "statement": "Converting a stored q7/q15 value to float and back returns the same stored value; converting an arbitrary real in int32-scaled range gives the truncated, clamped value and differs by less than one unit when in range; inputs whose scaled value leaves int32 are undefined behaviour.", "quantifier": "all stored values and all real inputs", "why_tests_cant": "infinitely many reals", "anchors": ["src/neo/fixed_point/fixed_point.hpp: fixed_point(Float), to_float"]}
{"id": "C08", "title": "Whole-array fixed-point kernels equal the scalar operator", "statement": "add/subtract over arrays of q7/q15 give, at every index and for every array length (any split into vector body and scalar remainder), exactly the scalar operator's result, reading and writing only in range. multiply is documented to do the same: it does on NEON q15 and in the scalar build, but on SSE4.1 the vector body differs (negative q7 products become +127; q15 rounds and -1 * -1 becomes -1).", "quantifier": "all array lengths and contents, both vector instruction sets", "why_tests_cant": "lengths and contents unbounded; tests use a tolerance", "anchors": ["src/neo/fixed_point/algorithm.hpp: add, subtract, multiply, apply_fixed_point_kernel", "src/neo/fixed_point/simd.hpp", "src/neo/simd/sse2.hpp: apply_kernel", "src/neo/simd/neon.hpp: apply_kernel"]}
{"id": "C09", "title": "Fixed-point complex arithmetic", "statement": "Sum and difference of fixed-point complex numbers act component-wise with saturation. The product ought to be the fixed-point complex product (rl*rr - il*ir, rl*ir + il*rr) scaled back by 2^F; the code violates this for almost all operands.", "quantifier": "all component values", "why_tests_cant": "2^64 operand pairs", "anchors": ["src/neo/fixed_point/complex.hpp: fixed_point_complex operator+,-,*"]}
{"id": "C10", "title": "Sparse matrix built from a dense one", "statement": "Building a csr_matrix from a dense matrix and a predicate gives a matrix whose element (r,c) is the dense element where the predicate holds and zero elsewhere, for every in-range (r,c), and whose number of stored values equals the number of positions satisfying the predicate.", "quantifier": "all matrices, all predicates, all positions", "why_tests_cant": "unbounded dimensions and arbitrary predicates", "anchors": ["src/neo/container/csr_matrix.hpp: csr_matrix(InMat, Filter), operator()"]}
{"id": "C11", "title": "Sparse matrix insert", "statement": "After any sequence of insert(r,c,v) in range, reading (r,c) returns the value of the most recent insert at that position and zero if there was none; row_container stays monotone, columns in each row stay sorted and all invariants needed for in-range access hold.", "quantifier": "all histories of inserts", "why_tests_cant": "history-dependent", "anchors": ["src/neo/container/csr_matrix.hpp: insert, operator(), row_container, column_container"]}
{"id": "C12", "title": "Sparse multiply-add equals masked dense multiply-add", "statement": "multiply_add with a sparse matrix row, accumulating in place, adds x[c]*M(row,c) for every column c and leaves the other columns untouched, provided no position was inserted twice; after a double insert the result disagrees with element reads.", "quantifier": "all matrices, rows, vectors", "why_tests_cant": "unbounded sizes and histories", "anchors": ["src/neo/algorithm/multiply_add.hpp: multiply_add (csr)", "src/neo/container/csr_matrix.hpp"]}
{"id": "C13", "title": "Split-complex multiply-add", "statement": "multiply_add on split-complex vectors computes re and im of x*y+z at every index, for every length and every SIMD batch width (vector body plus scalar tail), and may accumulate in place; it agrees with the interleaved version.", "quantifier": "all lengths, widths, contents", "why_tests_cant": "unbounded length; tail handling", "anchors": ["src/neo/algorithm/multiply_add.hpp: multiply_add (split), detail::multiply_add"]}
{"id": "C14", "title": "Element-wise algorithms are pointwise and alias-safe", "statement": "add, multiply, multiply_add, scale, fill and copy write exactly out[i] = f(x[i],y[i]) for every index, for vectors and matrices in either memory layout, also when the output is one of the inputs, touching nothing out of range.", "quantifier": "all shapes, contents and aliasing choices", "why_tests_cant": "unbounded shapes, aliasing", "anchors": ["src/neo/algorithm/add.hpp", "src/neo/algorithm/multiply.hpp", "src/neo/algorithm/scale.hpp", "src/neo/algorithm/fill.hpp", "src/neo/algorithm/copy.hpp"]}
{"id": "C15", "title": "Mean and variance", "statement": "mean is empty exactly for empty input, lies between min and max, and equals sum/size. variance is empty exactly for fewer than two elements, is the population variance, is never negative, zero iff all elements are equal, unchanged by adding a constant and scaled by s^2 under scaling. standard_deviation squared is variance. All this for extents below 2^31: the loops count in int, and longer vectors overflow the counter (undefined behaviour).", "quantifier": "all vectors and matrices of all extents", "why_tests_cant": "all inputs", "anchors": ["src/neo/algorithm/mean.hpp", "src/neo/algorithm/variance.hpp", "src/neo/algorithm/standard_deviation.hpp"]}
{"id": "C16", "title": "Error metrics and closeness predicates", "statement": "For equal extents: mean_squared_error is symmetric, non-negative and zero iff the real objects are equal; root_mean_squared_error is its square root. allclose holds iff every element differs by at most the tolerance; it is reflexive, symmetric and monotone in the tolerance, and with tolerance 0 it is equality. Mismatched extents are not rejected in release builds: a longer right-hand side is compared on its prefix, a shorter one is read out of bounds. For complex vectors mean_squared_error compares magnitudes only, so it is zero for different vectors.", "quantifier": "all pairs of vectors or matrices and tolerances", "why_tests_cant": "all inputs", "anchors": ["src/neo/algorithm/mean_squared_error.hpp", "src/neo/algorithm/allclose.hpp", "src/neo/algorithm/allmatch.hpp"]}
{"id": "C17", "title": "Energy and peak normalisation", "statement": "After normalize_energy a non-zero signal has energy exactly 1 and is a positive multiple of the input; after normalize_peak the largest magnitude is 1; zero signals are unchanged; both are idempotent and invariant under positive rescaling of the input.", "quantifier": "all vectors", "why_tests_cant": "all inputs", "anchors": ["src/neo/algorithm/normalize_energy.hpp", "src/neo/algorithm/normalize_peak.hpp"]}
{"id": "C18", "title": "normalize_impulse keeps channel balance", "statement": "normalize_impulse scales all channels by one common positive factor, namely the smallest per-channel energy normalisation factor (zero-energy channels count as factor 1), hence all ratios between samples and channels are preserved, no channel that had non-zero energy ends with energy above 1, and some channel reaches energy exactly 1 unless a silent channel caps the factor at 1.", "quantifier": "all multichannel impulse responses", "why_tests_cant": "all inputs", "anchors": ["src/neo/convolution/normalize_impulse.hpp: normalize_impulse"]}
{"id": "C19", "title": "Bit-reversal reordering", "statement": "For every order, the reorder plan moves element i to the bit-reversed position, is a permutation, is its own inverse and never accesses out of range; the table-based, table-free, interleaved-float and split-complex versions produce the same reordering.", "quantifier": "all orders and contents", "why_tests_cant": "all sizes", "anchors": ["src/neo/fft/reference/bitrevorder.hpp: bitrevorder_plan, bitrevorder"]}
{"id": "C20", "title": "Complex FFT computes the DFT", "statement": "For every order k in 1..27 and every vector of 2^k complex samples, the default fft_plan run forward returns X[j] = sum_i x[i] exp(-2 pi i j i / 2^k) and backward the conjugate-sign sum, without out-of-range access; constructing a plan above the maximum order throws. Order 0 (size 1) accesses out of range.", "quantifier": "all orders, directions and inputs", "why_tests_cant": "real-valued inputs, all sizes; repo tests only check round trips", "anchors": ["src/neo/fft/reference/c2c_dit2_plan.hpp: c2c_dit2_plan", "src/neo/fft/reference/kernel/c2c_dit2.hpp: c2c_dit2_v3", "src/neo/fft/fft.hpp: fft, ifft"]}
{"id": "C21", "title": "FFT round trip, Parseval, linearity", "statement": "Backward after forward (or forward after backward) multiplies every sample by the size; the transform is linear and preserves energy up to the size; the convolution theorem holds for plan outputs.", "quantifier": "all orders and inputs", "why_tests_cant": "real-valued inputs", "anchors": ["src/neo/fft/reference/c2c_dit2_plan.hpp", "src/neo/fft/fft.hpp"]}
{"id": "C22", "title": "All radix-2 kernels agree", "statement": "Kernels v1, v2 and v3 compute the same function for every order >= 1, kernel v4 for every order >= 2; v4 differs for order 1.", "quantifier": "all orders and inputs", "why_tests_cant": "all sizes and inputs", "anchors": ["src/neo/fft/reference/kernel/c2c_dit2.hpp: c2c_dit2_v1..v4"]}
{"id": "C23", "title": "Split-complex FFT", "statement": "The split-complex plan on separate real/imaginary arrays computes the same DFT as the complex plan, in both directions, for every order in 1..27.", "quantifier": "all orders, directions, inputs", "why_tests_cant": "real-valued inputs, all sizes", "anchors": ["src/neo/fft/fallback/fallback_split_fft_plan.hpp: fallback_split_fft_plan"]}
{"id": "C24", "title": "Real FFT forward", "statement": "rfft of 2^k real samples returns bins 0..2^(k-1) of the DFT of the samples, for every order >= 1; bins 0 and n/2 are real.", "quantifier": "all orders and real inputs", "why_tests_cant": "real-valued inputs", "anchors": ["src/neo/fft/fallback/fallback_rfft_plan.hpp: operator() (forward)", "src/neo/fft/rfft.hpp: rfft"]}
{"id": "C25", "title": "Real FFT round trip", "statement": "irfft(rfft(x)) = size * x for every real x; irfft of any half spectrum is the real inverse sum of its Hermitian extension and ignores imaginary parts of bins 0 and n/2.", "quantifier": "all orders and half spectra", "why_tests_cant": "real-valued inputs", "anchors": ["src/neo/fft/fallback/fallback_rfft_plan.hpp", "src/neo/fft/rfft.hpp: irfft"]}
{"id": "C26", "title": "Two real FFTs from one complex FFT", "statement": "rfft_deinterleave applied to the complex DFT of a + i b (a, b real) returns the half spectra of a and of b, for every even or odd size.", "quantifier": "all sizes and real inputs", "why_tests_cant": "real-valued inputs", "anchors": ["src/neo/fft/rfft.hpp: rfft_deinterleave"]}
{"id": "C27", "title": "Arbitrary-size DFT plan (Bluestein)", "statement": "dft_plan of any size n >= 1 (not only powers of two) up to its maximum computes the n-point DFT in both directions, repeated calls included; sizes whose padded transform exceeds the maximum order throw.", "quantifier": "all sizes, directions, inputs and call histories", "why_tests_cant": "all sizes and inputs", "anchors": ["src/neo/fft/fallback/fallback_dft_plan.hpp: fallback_dft_plan"]}
{"id": "C28", "title": "Direct DFT", "statement": "dft(in, out, dir) writes the defining sum at every bin for every size, and inverse of forward is size times the input; in and out must be different vectors (in place is wrong).", "quantifier": "all sizes and inputs", "why_tests_cant": "real-valued inputs", "anchors": ["src/neo/fft/dft.hpp: dft", "src/neo/fft/twiddle.hpp: twiddle"]}
{"id": "C29", "title": "Radix-3 and radix-5 in-place plans", "statement": "c2c_dif3_plan and c2c_dif5_plan compute the DFT of size 3^k / 5^k in both directions for every order k.", "quantifier": "all orders up to 18 and 12 (the plans advertise maxima of 17 and 11), directions, inputs", "why_tests_cant": "repo tests only check round trip, for a few orders", "anchors": ["src/neo/fft/reference/c2c_dif3_plan.hpp", "src/neo/fft/reference/c2c_dif5_plan.hpp", "src/neo/fft/reference/digitrevorder.hpp"]}
{"id": "C30", "title": "Stockham radix-3/4/5/8 plans", "statement": "The Stockham radix-3, 4, 5 and 8 DIF plans compute the DFT of size r^k in both directions for every order.", "quantifier": "all orders, directions, inputs", "why_tests_cant": "repo tests only check round trip", "anchors": ["src/neo/fft/reference/c2c_stockham_dif3_plan.hpp", "src/neo/fft/reference/c2c_stockham_dif4_plan.hpp", "src/neo/fft/reference/c2c_stockham_dif5_plan.hpp", "src/neo/fft/reference/c2c_stockham_dif8_plan.hpp"]}
{"id": "C31", "title": "Stockham radix-2 plans: direction", "statement": "c2c_stockham_dif2r/dif2i plans should compute the forward DFT when run forward. In fact forward computes the backward DFT and vice versa, for every order; the round trip still yields size times the input.", "quantifier": "all orders and inputs", "why_tests_cant": "a round trip test cannot see a swapped direction", "anchors": ["src/neo/fft/reference/c2c_stockham_dif2_plan.hpp: c2c_stockham_dif2r_plan, c2c_stockham_dif2i_plan"]}
{"id": "C32", "title": "Radix-4 DIT/DIF plans", "statement": "c2c_dit4_plan, c2c_dif4_plan and c2c_stockham_dit4_plan should compute the DFT of size 4^k. The sign of the quarter-turn is swapped, so the forward transform is not the DFT (for size 4 it is the inverse DFT, for larger sizes neither); backward after forward still is size times identity.", "quantifier": "all orders and inputs", "why_tests_cant": "a round trip test cannot see it", "anchors": ["src/neo/fft/reference/c2c_dit4_plan.hpp", "src/neo/fft/reference/c2c_stockham_dit4_plan.hpp"]}
{"id": "C33", "title": "DCT-II", "statement": "dct2_plan of size 2^k computes the unnormalised DCT-II, out[j] = 2 sum_i x[i] cos(pi j (2i+1) / (2n)), for every order >= 1.", "quantifier": "all orders and inputs", "why_tests_cant": "real-valued inputs", "anchors": ["src/neo/fft/dct.hpp: dct2_plan"]}
{"id": "C34", "title": "Digit-reversal reordering", "statement": "digitrevorder_plan<R> of size R^k moves element i to its base-R digit-reversed position for every radix R >= 2 and order k, is an involution and never accesses out of range; its table construction terminates.", "quantifier": "all radices, orders, contents", "why_tests_cant": "all sizes", "anchors": ["src/neo/fft/reference/digitrevorder.hpp: digitrevorder_plan"]}
{"id": "C35", "title": "Experimental packed real FFT", "statement": "fft::experimental::rfft_plan should produce the packed half spectrum of the DFT of its input. At every size >= 4 it does not: it packs the half spectrum of the input with its odd samples rotated by two places (wrong sign of the recombination twiddle). Its backward call after its forward call is n/2 times the input; size 2 is out of bounds.", "quantifier": "all orders and inputs", "why_tests_cant": "repo tests use a delta and a round trip", "anchors": ["src/neo/fft/experimental/rfft.hpp: rfft_plan"]}
{"id": "C36", "title": "Direct convolution", "statement": "direct_convolve of a signal of length s >= 1 and patch of length p >= 1 has length s+p-1 and element k equal to sum_m signal[m]*patch[k-m]; it is commutative and bilinear; all accesses are in range.", "quantifier": "all lengths and contents", "why_tests_cant": "unbounded lengths", "anchors": ["src/neo/convolution/direct_convolve.hpp: direct_convolve", "src/neo/convolution/mode.hpp"]}
{"id": "C37", "title": "FFT convolution equals direct convolution", "statement": "fft_convolve(signal, patch) equals direct_convolve(signal, patch) for all lengths with output size at least 2, and is empty for empty operands.", "quantifier": "all lengths and real contents", "why_tests_cant": "real-valued inputs", "anchors": ["src/neo/convolution/fft_convolver.hpp: fft_convolver, fft_convolve"]}
{"id": "C38", "title": "STFT framing covers the signal", "statement": "num_sftf_frames(S, F, O) with O < F equals ceil(S/(F-O)) despite unsigned wrap-around for every S >= 1; every frame starts inside the signal and every sample is in some frame; S = 0 gives a huge bogus count.", "quantifier": "all 64-bit signal lengths, frame lengths and overlaps", "why_tests_cant": "64-bit wrap-around", "anchors": ["src/neo/fft/stft.hpp: num_sftf_frames"]}
{"id": "C39", "title": "STFT frame content", "statement": "stft writes, for each channel and frame f, the real FFT of the zero-padded windowed samples starting at f*(frame-overlap); no access leaves the input, whatever its length. The window is sampled over the transform size, so for zero-padded transforms a Hann window is cut off in the middle of the frame.", "quantifier": "all signals, lengths, frame/overlap/transform choices", "why_tests_cant": "unbounded parameter space", "anchors": ["src/neo/fft/stft.hpp: stft_plan"]}
{"id": "C40", "title": "Uniform partitioning preserves the impulse response", "statement": "uniform_partition(h, B) for a power of two B >= 1 yields ceil(L/B) rows of B+1 bins, row p the spectrum of h[pB..pB+B) zero padded to 2B, so that overlap-adding the inverse transforms at offsets pB restores h. For block sizes which are not powers of two the convolver's step does not match the partition length.", "quantifier": "all impulse responses and block sizes", "why_tests_cant": "unbounded", "anchors": ["src/neo/convolution/uniform_partition.hpp: uniform_partition"]}
{"id": "C41", "title": "Frequency-delay-line index", "statement": "fdl_index over n segments: on call t the spectrum is written at row t mod n and each filter partition s is paired exactly once with the row that holds the spectrum of call t-s (or a never-written row).", "quantifier": "all histories of calls and segment counts", "why_tests_cant": "history-dependent", "anchors": ["src/neo/convolution/fdl_index.hpp: fdl_index"]}
{"id": "C42", "title": "Overlap-save block processing", "statement": "overlap_save with block size B = filter length, a power of two >= 2, run over any sequence of blocks with a callback multiplying by a fixed transfer function computes the linear convolution with the corresponding filter on the whole stream.", "quantifier": "all block sequences and filters", "why_tests_cant": "history-dependent streaming", "anchors": ["src/neo/convolution/overlap_save.hpp: overlap_save"]}
{"id": "C43", "title": "Overlap-add block processing", "statement": "overlap_add does the same for F <= B+1 and 2B <= transform size; otherwise it reads out of range or loses the tail.", "quantifier": "all block sequences, filters, sizes", "why_tests_cant": "history-dependent streaming", "anchors": ["src/neo/convolution/overlap_add.hpp: overlap_add"]}
{"id": "C44", "title": "Uniformly partitioned overlap-save convolver is linear convolution", "statement": "For every impulse response h (any length L >= 1), block size B = 2^k >= 2 and every sequence of blocks fed to upols_convolver after filter(uniform_partition(h,B)), output sample t of the stream is sum_j h[j] x[t-j] with zero latency; all accesses are in range.", "quantifier": "all impulse responses, block sizes and block histories", "why_tests_cant": "history-dependent streaming", "anchors": ["src/neo/convolution/uniform_partitioned_convolver.hpp", "src/neo/convolution/dense_convolver.hpp: upols_convolver", "src/neo/convolution/dense_fdl.hpp", "src/neo/convolution/dense_filter.hpp"]}
{"id": "C45", "title": "Uniformly partitioned overlap-add convolver is linear convolution", "statement": "The same for upola_convolver.", "quantifier": "all impulse responses, block sizes and block histories", "why_tests_cant": "history-dependent streaming", "anchors": ["src/neo/convolution/uniform_partitioned_convolver.hpp", "src/neo/convolution/dense_convolver.hpp: upola_convolver"]}
{"id": "C46", "title": "Split and sparse convolvers", "statement": "split_upols/split_upola convolvers produce the same stream as the dense ones; sparse_upols/upola with a keep-all predicate produce the same stream, and with any predicate the stream of the filter with the dropped bins set to zero.", "quantifier": "all filters, predicates, block histories", "why_tests_cant": "history-dependent streaming", "anchors": ["src/neo/convolution/dense_split_fdl (dense_fdl.hpp)", "src/neo/convolution/dense_filter.hpp: dense_split_filter", "src/neo/convolution/sparse_filter.hpp", "src/neo/convolution/sparse_convolver.hpp"]}
{"id": "C47", "title": "overlap_add_convolver with arbitrary call lengths", "statement": "overlap_add_convolver (upola_v2) fed with calls whose lengths are multiples of the block size yields the linear convolution; the code also admits shorter calls, for which samples are corrupted; calling filter() again does not reset the position, so a shorter filter is then indexed out of range.", "quantifier": "all call-length schedules and filters", "why_tests_cant": "schedule- and history-dependent", "anchors": ["src/neo/convolution/overlap_add_convolver.hpp: overlap_add_convolver"]}
{"id": "C48", "title": "Convolver is causal, linear, time-invariant and resettable", "statement": "For all convolvers of C44-C46: with a filter made from an impulse response, output up to sample t depends only on input up to sample t; with an arbitrary filter matrix (or dropped bins) the same holds block by block; output is linear in the stream, delaying the input by whole blocks delays the output, and calling filter() again restores the initial state.", "quantifier": "all pairs of streams and filters", "why_tests_cant": "relational over histories", "anchors": ["src/neo/convolution/uniform_partitioned_convolver.hpp: filter, operator()"]}
{"id": "C49", "title": "Compressed FDL reproduces the last inserted spectra within half a step", "statement": "After any sequence of inserts into a compressed_fdl with int8/int16 storage, every element reads back as the component last inserted there with error at most 1/(2 max) plus float rounding (2^-22), for components of magnitude <= 1; elements never inserted read as 0. Larger components are not saturated: up to twice the range they come back with the opposite sign.", "quantifier": "all insert histories, extents and binary32 spectra", "why_tests_cant": "real-valued inputs", "anchors": ["src/neo/convolution/compressed_fdl.hpp: compressed_fdl", "src/neo/container/compressed_accessor.hpp"]}
{"id": "C50", "title": "Window functions", "statement": "rectangular is 1; hann lies in [0,1], is 0 at both ends, symmetric, rising to the middle, and 1 in the middle of odd sizes, where two windows half a window apart add up to 1; hamming lies in [0.08,1], is symmetric and rises to the middle; for every size >= 2 and index. generate_window and fill_window write all samples. For size 1 hann and hamming divide by zero.", "quantifier": "all sizes and indices", "why_tests_cant": "all sizes", "anchors": ["src/neo/math/windowing.hpp: rectangular_window, hann_window, hamming_window, fill_window, generate_window"]}
{"id": "C51", "title": "Decibel and mel conversions", "statement": "amplitude_to_db is monotone, never below its floor (default -144 dB), equals 20 log10 above it; hertz_to_mel and mel_to_hertz are mutually inverse and strictly increasing; mel_frequencies starts at f_min, ends at f_max and is increasing and equally spaced in mel.", "quantifier": "all reals, all table sizes", "why_tests_cant": "real-valued inputs", "anchors": ["src/neo/unit/decibel.hpp: amplitude_to_db", "src/neo/unit/mel.hpp: hertz_to_mel, mel_to_hertz, mel_frequencies"]}
{"id": "C52", "title": "rfft bin frequencies", "statement": "rfftfreq(size, index, d) is index/(size*d): increasing, bin 0 at 0 and bin size/2 at the Nyquist frequency. The vector overload numbers bins as if the vector length were the transform size, so for a vector of n/2+1 bins its values differ from the scalar overload's for n.", "quantifier": "all sizes, indices, sample rates", "why_tests_cant": "real-valued inputs", "anchors": ["src/neo/fft/rfftfreq.hpp: rfftfreq"]}
{"id": "C53", "title": "scalar_complex arithmetic", "statement": "scalar_complex with +,-,*,/ and their compound assignments implements complex field arithmetic; conj is an involutive ring homomorphism, abs is multiplicative. math::real of a real is itself; math::imag of a real should be 0 but returns the number.", "quantifier": "all complex numbers", "why_tests_cant": "real-valued inputs", "anchors": ["src/neo/complex/scalar_complex.hpp", "src/neo/math/imag.hpp", "src/neo/math/real.hpp", "src/neo/math/conj.hpp"]}
{"id": "C54", "title": "Offline convolution tool", "statement": "The command line convolver's convolve() returns, for any signal length (not only multiples of the block size), the first S samples of the linear convolution of each channel with its impulse response, all responses scaled by the one factor of normalize_impulse. The tool writes nothing when channel counts or sample rates differ; otherwise both runs write the same samples, the convolution scaled to peak 1. A response with fewer channels than the signal is read out of bounds, and a signal of 2^31 samples or more is undefined (int cast).", "quantifier": "all signals, impulse responses, channel counts and power-of-two block sizes", "why_tests_cant": "unbounded lengths and contents; the last block is partial in most calls", "anchors": ["extra/cli/src/convolver.cpp: convolve", "src/neo/convolution/normalize_impulse.hpp", "src/neo/convolution/uniform_partition.hpp"]}
{"id": "C55", "title": "Streaming overlap-add framer is independent of the host's buffer sizes", "statement": "The plugin's ConstantOverlapAdd processor, prepared and reset, then fed with the same samples cut into blocks in any way (each at most the prepared maximum), accesses no buffer out of range and produces the same output stream: the frames every hop samples, processed in order by any in-place frame processor, added up frameSize - 1 samples late. reset() after any session starts over. An identity processor gives the delayed input with gain 2 after a start-up rise. prepare() alone does not clear: the first samples are the old buffer contents.", "quantifier": "all frame and hop sizes (powers of two), channel counts, block-size schedules, signals, frame processors and initial buffer contents", "why_tests_cant": "the block-size schedule is chosen by the host; every split of the stream must agree", "anchors": ["extra/plugin/src/dsp/ConstantOverlapAdd.hpp"]}
{"id": "C56", "title": "SSE/NEON array loop splits the index range exactly", "statement": "The remainder-first vector loops process every index exactly once for every length and lane count, never touching memory outside the arrays.", "quantifier": "all lengths and lane counts", "why_tests_cant": "unbounded length", "anchors": ["src/neo/simd/sse2.hpp: apply_kernel", "src/neo/simd/neon.hpp: apply_kernel"]}
{"id": "C57", "title": "A-weighting curve", "statement": "a_weighting(f) is 2 dB plus 20 log10 of the standard A-weighting gain, depends on |f| only, stays below +2 dB for every frequency, increases strictly up to 2 kHz, decreases strictly from 3 kHz on and is 0 dB at 1 kHz to a thousandth of a decibel.", "quantifier": "all non-zero frequencies", "why_tests_cant": "real-valued inputs", "anchors": ["src/neo/math/a_weighting.hpp: a_weighting"]}
{"id": "C58", "title": "The plugin's dense convolution is a linear convolution of the whole stream", "statement": "After an impulse response has been loaded and the processor prepared, in either order and after any earlier calls, reset() and then blocks of any sizes up to the prepared maximum give, on every channel, the linear convolution of the channel's whole input stream with the normalised response of that channel, times 2 and delayed by the frame size minus 1 (the frame size is the next power of two of the constructor's block size); no buffer is accessed out of range. Without a response the input passes, times 2, with the same delay. A response with fewer channels than the host plays is read out of range. reset() does not clear the convolvers: a later session contains the tails of the whole frames of all sessions since the last load.", "quantifier": "all earlier call histories, responses, channel counts, block schedules, initial buffer contents and resamplers", "why_tests_cant": "unbounded streams and block schedules, arbitrary call histories and memory contents", "anchors": ["extra/plugin/src/dsp/DenseConvolution.cpp: loadImpulseResponse, prepareFrame, processFrame, resetFrame, updateImpulseResponse", "extra/plugin/src/dsp/ConstantOverlapAdd.hpp: prepare, reset, process"]}
{"id": "C59", "title": "Offline convolution of whole files, dense and sparse", "statement": "dense_convolve() convolves every channel of a signal with the response of that channel and returns as many samples as the signal has, for every signal length (also when it is no multiple of the block size) and every type of dense convolver; all responses are scaled by one common positive factor, and what the new output buffer contained does not matter. sparse_convolve() does the same with partition spectra that lost exactly the bins whose level, relative to the loudest bin of the channel and weighted for its frequency (100 dB for the low bins to keep), is not above the threshold. If no level can be below the threshold the result is the dense one (provided bin 0 is among the low bins to keep), with a threshold of 100 dB or more it is silence.", "quantifier": "every signal and response (any number of channels, any lengths that fit an int), every power-of-two block size, sample rate, threshold and number of low bins to keep", "why_tests_cant": "tests convolve a few files with one block size; the padding of the last block, the mixing of channel states in the interleaved loop and the selection of bins depend on every length, value and threshold", "anchors": ["extra/plugin/src/dsp/DenseConvolution.hpp: dense_convolve", "extra/plugin/src/dsp/DenseConvolution.cpp: sparse_convolve, normalization_factor"]}
{"id": "C60", "title": "The plugin's Convolution over every history of calls", "statement": "Before a response is loaded and the object is prepared, and after reset(), every block comes out unchanged. After loading and preparing, in either order and whatever happened before, blocks of the prepared size (a power of two) come out as the linear convolution, without latency, of all blocks since then with the resampled response of their channel; blocks of any other size come out unchanged and are not part of the stream. A new response or specification starts every channel over; a response with fewer channels than were prepared, or a block with more channels than were prepared, is the only way to leave the arrays. processBlocks() convolves a whole signal in blocks and leaves the object reset.", "quantifier": "every sequence of prepare, load (successful or not), reset and process calls, every response, resampler result, channel count, power-of-two block size and signal length", "why_tests_cant": "the output of a call depends on the whole history of calls before it; tests run a handful of histories", "anchors": ["extra/plugin/src/dsp/Convolution.hpp: Convolution", "extra/plugin/src/dsp/AudioBuffer.hpp: processBlocks", "extra/plugin/src/dsp/AudioBuffer.cpp: resample"]}
{"id": "C61", "title": "The plugin's spectrogram image and histogram", "statement": "powerHistogram() counts every bin of a spectrogram once, in the bucket of its weighted attenuation against the loudest bin, between 0 and 143 dB rounded to the nearest integer; it never writes outside the 144 buckets, the counts sum up to the number of bins, and the result does not change when the whole recording is scaled. powerSpectrumImage() paints a pixel white where the weighted level is below the threshold. The bars of powerHistogramImage() are 0 to 250 pixels high, the tallest has full height, the others are in proportion.", "quantifier": "every spectrogram with at least one and fewer than 2^31 bins, every weighting and threshold", "why_tests_cant": "the index of a bucket comes from rounding a logarithm of arbitrary data; whether it stays in range, and what the picture shows, must hold for every spectrogram", "anchors": ["extra/plugin/src/dsp/Spectrum.cpp: powerSpectrumImage, powerHistogram, powerHistogramImage"]}
{"id": "C62", "title": "Accuracy of the fast logarithm and the estimated decibels", "statement": "fast_log2(x) differs from the binary logarithm by at most 0.0002, and the estimating amplitude_to_db from the accurate one by at most 0.002 dB; it never returns less than the floor, and exactly the floor for gains that are not positive. All operations and constants are rounded to float.", "quantifier": "every positive normal float for fast_log2; every finite float gain for amplitude_to_db with a floor of -700 dB or more (the default is -144), every floor when the gain is not subnormal", "why_tests_cant": "there are two billion positive floats, and tests compare a few gains with a tolerance; the bound combines the approximation error, which needs analysis, with the rounding of every operation", "anchors": ["src/neo/math/fast_math.hpp: fast_log2, fast_log10", "src/neo/unit/decibel.hpp: amplitude_to_db", "src/neo/bit/bit_cast.hpp: bit_cast"]}
{"id": "C63", "title": "Rounding error of the transform", "statement": "The forward or backward transform computed in floating point differs from the exact discrete Fourier transform by at most 28 p u times the norm of the exact spectrum (2-norm; n = 2^p points; u = 2^-24 for float, 2^-53 for double), plus an underflow term of 2^-115 (2^-1040). Transforming forward and back gives n times the input within 57 p u. The four kernels return bit-identical results whatever the rounding.", "quantifier": "every order from 1 to 27, every kernel, both directions, every input with norm at most 2^111 (float) or 2^1007 (double), every rounding function that rounds to nearest below overflow, every cosine and sine accurate to 2^-24 (2^-53)", "why_tests_cant": "tests compare a few random vectors with a tolerance; that the error grows only with the logarithm of the length, for every input, needs an analysis of every rounding", "anchors": ["src/neo/fft/reference/kernel/c2c_dit2.hpp: c2c_dit2_v1..v4", "src/neo/fft/twiddle.hpp: twiddle, make_twiddle_lut_radix2", "src/neo/fft/reference/c2c_dit2_plan.hpp: operator()", "src/neo/fft/fft.hpp: fft_plan"]}
{"id": "C64", "title": "Rounding error of convolution", "statement": "fft_convolve computed in floating point differs from the exact linear convolution by at most (114 p + 9) u sqrt(2^p) |x| |h| in every sample (2^p = transform size, u = 2^-24 for float, 2^-53 for double). Streaming through a partitioned overlap-save convolver with P partitions of B = 2^k samples, every output sample, however late in the stream, is within (114 (k+1) + 9 P) u 2 B P X G of the exact convolution, X bounding the samples and G the norms of the partitions. For the overlap-add convolver the same holds with (229 (k+1) + 19 P). The split-complex convolvers (scalar loop or SIMD with any number of lanes) return the same bits as the interleaved ones.", "quantifier": "every signal, filter, stream length and call history; block sizes 2^1..2^26; up to 10000 partitions; every rounding function that rounds to nearest below 2^127 (2^1023) and every cosine and sine accurate to 2^-24 (2^-53); every number of SIMD lanes", "why_tests_cant": "The bound must hold for every signal, filter and stream length; tests compare a few random signals against a tolerance.", "anchors": ["src/neo/convolution/fft_convolver.hpp: fft_convolver, fft_convolve", "src/neo/convolution/overlap_save.hpp: overlap_save", "src/neo/convolution/overlap_add.hpp: overlap_add", "src/neo/convolution/uniform_partitioned_convolver.hpp: uniform_partitioned_convolver", "src/neo/convolution/uniform_partition.hpp: uniform_partition", "src/neo/convolution/dense_filter.hpp: dense_filter, dense_split_filter", "src/neo/algorithm/multiply_add.hpp: multiply_add", "src/neo/fft/fallback/fallback_rfft_plan.hpp: fallback_rfft_plan"]}
{"id": "C65", "title": "The Python API", "statement": "neo.fft.fft and neo.fft.ifft of a complex array of power-of-two length with any memory layout (strided, reversed, broadcast) return the discrete Fourier transform times the factor numpy uses for norm=backward, ortho or forward; ifft(fft(x, norm=m), norm=m) is x for each norm and ortho keeps the energy; other lengths, norms and ranks raise. neo.convolve of two real arrays returns the full linear convolution for both methods and raises for other modes. The arguments numpy would crop, zero-pad or reject, and the precision the computation runs in, are characterised where they differ from numpy.", "quantifier": "every array (address, byte stride of either sign, flags, element type, values) of length 2^1..2^27 for transforms, any lengths for direct convolution; every norm, mode and method string; every content of uninitialised memory", "why_tests_cant": "Tests call the functions with a few contiguous arrays; a view of any stride, any length argument and any content of fresh memory must be covered.", "anchors": ["extra/python/src/main.cpp: fft, convolve, rfftfreq, as_mdspan, to_mdspan_layout_stride, make_strides, PYBIND11_MODULE", "extra/python/src/neo/__init__.py: convolve", "extra/python/src/neo/fft/__init__.py: fft, ifft, rfftfreq"]}
{"id": "C66", "title": "FFT plans on vendor libraries", "statement": "Given what the vendor library documents, a plan built on Accelerate, MKL or IPP replaces the elements of a vector of any layout by their DFT (in place) or writes it to another vector (IPP), touches nothing else, and does so on every call; arbitrary-length, split-complex and real plans likewise. On contiguous vectors the result is that of the portable plan. The accepted orders are characterised. IPP's DCT-II is the orthonormal one, DCT-III inverts it, and it never equals the portable DCT. scale through BLAS scales every element of vectors shorter than 2^(bits-1).", "quantifier": "every order (or length), every plan state reachable by calls, every layout and stride, both directions, every content of memory", "why_tests_cant": "Tests run one build with one library and compare a few sizes to a tolerance; agreement between builds, every layout and every sequence of calls on one plan cannot be enumerated.", "anchors": ["src/neo/fft/backend/vdsp.hpp: apple_vdsp_fft_plan, apple_vdsp_split_fft_plan", "src/neo/fft/backend/mkl.hpp: intel_mkl_fft_plan", "src/neo/fft/backend/ipp.hpp: intel_ipp_fft_plan, intel_ipp_dft_plan, intel_ipp_split_fft_plan, intel_ipp_rfft_plan, intel_ipp_dct_plan", "src/neo/algorithm/backend/cblas.hpp", "src/neo/algorithm/scale.hpp: scale"]}
{"id": "C67", "title": "Life of vendor plans", "statement": "In any program that creates, moves, assigns, destroys and runs vendor FFT plans, no library handle is released twice or used after release, except by running a plan that was moved from; a plan that was not moved from always runs; no two plans own one handle. IPP plans never leak. Accelerate and MKL plans leak exactly the handles of plans that were move-assigned over, for good.", "quantifier": "every finite history of operations on any number of plan objects, for each of the three libraries", "why_tests_cant": "A leak or double release shows after particular sequences of moves; the sequences are unbounded and the libraries are absent from the test builds.", "anchors": ["src/neo/fft/backend/vdsp.hpp: move constructor, move assignment, destructor", "src/neo/fft/backend/mkl.hpp: ~intel_mkl_fft_plan, handle_t", "src/neo/fft/backend/ipp.hpp: _handle, _spec_buf"]}
{"id": "C68", "title": "What a host hears from the plugin", "statement": "After any earlier calls and a prepareToPlay, for any division of the track into blocks and any automation, the plugin reads nothing out of range and each channel is: output gain times (wet volume times the convolved, input-amplified signal, frame size minus one samples late, plus dry volume times the input-amplified signal, undelayed). The volumes are those of the balanced mixing rule for the wet parameter and move to a new value linearly in 50 ms, so automation of the wet parameter never makes a jump. Without a response file the wet signal is the delayed input. Expected but false: the reported latency and tail are right, silence gives silence, dry and wet are aligned.", "quantifier": "every supported bus layout, block size, sample rate, response, history of the instance, contents of new buffers, sequence of blocks and parameter values", "why_tests_cant": "The result depends on how the host divides the track into blocks, on the whole automation history and on uninitialised memory; tests can try only a few of them, and the plugin has no tests.", "anchors": ["extra/plugin/src/PerceptualConvolution.cpp: prepare, process, reset", "extra/plugin/src/PluginProcessor.cpp: prepareToPlay, processBlock, isBusesLayoutSupported, getTailLengthSeconds", "extra/plugin/src/PluginParameter.cpp: createParameters"]}
{"id": "C69", "title": "SIMD batches are lane-wise IEEE arithmetic", "statement": "Adding, subtracting or multiplying two batches (4/8/16 floats, 2/4/8 doubles, 8/16 half-precision numbers) gives in every lane exactly the IEEE 754 result of that lane's operands in the batch's element type, in every rounding direction, including subnormals, signed zeros, overflow, infinities and NaN; for half precision this holds although the work is done in single precision. Loads, operations and stores touch exactly the addressed elements. Complex numbers over batches are lane-wise. abs of a half-precision complex number is accurate to 5/4096 for magnitudes from 1/64 to 254. Expected but false: abs is finite and non-zero whenever the magnitude is representable.", "quantifier": "every pair of operands of the type, every lane, rounding direction, array, offset", "why_tests_cant": "There are 2^32 pairs of half-precision operands per operation and rounding twice could go wrong for a few of them only; the unit test uses one pair of small integers with equal lanes.", "anchors": ["src/neo/simd/avx.hpp: float16x8, float16x16, float32x8, float64x4", "src/neo/simd/sse2.hpp: float32x4, float64x2", "src/neo/simd/avx512.hpp: float32x16, float64x8", "src/neo/complex/scalar_complex.hpp: operator*, abs"]}
{"id": "C70", "title": "What changing or leaving out filter bins costs", "statement": "When the partition spectra of a partitioned convolver change, no output sample moves by more than the input's peak times the sum of the magnitudes of all changes (bins other than the first and last count twice). Hence a sparse convolver stays within the input's peak times the magnitudes of the bins its predicate rejects of the dense one and of the true convolution, and the offline sparse convolution with a threshold in dB stays within a sum of the amplitudes the threshold allows to lose. The output is bounded by the peak times the filter's total magnitude. The bound is attained.", "quantifier": "every filter matrix, predicate, block size, number of partitions, input stream, threshold, number of low bins kept, sample rate", "why_tests_cant": "The worst input for a given set of dropped bins is not known in advance, the error accumulates over all partitions and arbitrarily long streams; tests compare one response and one predicate.", "anchors": ["src/neo/convolution/sparse_convolver.hpp: sparse_upols_convolver, sparse_upola_convolver", "src/neo/convolution/dense_convolver.hpp", "src/neo/convolution/uniform_partitioned_convolver.hpp", "extra/plugin/src/dsp/DenseConvolution.cpp: sparse_convolve"]}
{"id": "C71", "title": "Direct convolution in floating point", "statement": "In float or double, every sample of direct_convolve is within (1+u)^(L+1)-1 of the exact linear convolution, relative to the convolution of the magnitudes (L the length of the shorter operand, u = 2^-24 or 2^-53), unless the bound itself overflows; the caller's output buffer and the returned one hold the same values. Operands whose samples are multiples of powers of two within the precision are convolved exactly, and convolving with a delayed unit impulse returns the delayed signal bit for bit. Exchanging operands of different lengths gives the same bits. direct_convolve and the FFT convolution agree to the sum of both bounds. Expected but false: exchanging operands of equal length gives the same bits.", "quantifier": "every pair of signals of any lengths, both formats, every arithmetic that rounds to nearest", "why_tests_cant": "The error depends on the cancellation between terms and on the order of the additions; tests compare a few short signals with a tolerance.", "anchors": ["src/neo/convolution/direct_convolve.hpp: direct_convolve", "src/neo/convolution/fft_convolve.hpp: fft_convolve"]}
{"id": "C72", "title": "Statistics and normalisation in floating point", "statement": "In float or double, with n elements and u = 2^-24 or 2^-53: mean is within about (n+2)u times the average magnitude of the average, and is the average rounded once for multiples of a power of two within the precision; variance is never negative and within about (n+5)u of the population variance plus twice the squared error of the average, the standard deviation and the (root) mean squared error correspondingly; mean squared error gives the same bits for exchanged operands and zero for equal ones. After normalize_peak no sample exceeds 1 and the peak is 1 or the number just below; after normalize_energy the root of the energy is within about (n+5)u of 1 and every sample within that of its exact value; normalize_impulse scales all channels by one factor and leaves none above 1 by more than that. Expected but false: the mean lies between the smallest and largest element (2^25 ones have mean 1/2 in float); the peak becomes exactly 1; different signals have a non-zero error; a quiet signal is normalised.", "quantifier": "every vector and matrix, both formats, every arithmetic that rounds to nearest", "why_tests_cant": "The error depends on the number of elements, cancellation and underflow; tests use a few short signals and a tolerance, and none is long enough for the float sum to stop growing.", "anchors": ["src/neo/algorithm/mean.hpp: mean", "src/neo/algorithm/variance.hpp: variance", "src/neo/algorithm/standard_deviation.hpp", "src/neo/algorithm/mean_squared_error.hpp", "src/neo/algorithm/root_mean_squared_error.hpp", "src/neo/algorithm/normalize_peak.hpp", "src/neo/algorithm/normalize_energy.hpp", "src/neo/convolution/normalize_impulse.hpp"]}
{"id": "C73", "title": "FFT plans used by concurrent threads", "statement": "Threads that call complex and real FFT plans at the same time, where nothing one call writes (its vector; or its output and its plan's own buffer) is used by another, do not race under any schedule, do not deadlock, never go out of range, finish within a bounded number of accesses, and each call leaves the transform of its own input and changes nothing else. Tables of plans and input vectors may be shared: one complex plan can serve any number of threads. Expected but false of real plans: sharing one between threads is a race on its buffer, and there is a schedule under which both calls return the spectrum of the second input.", "quantifier": "every number of threads, every mix of complex forward and backward, real forward and real backward calls, every order 1..27, every input, every interleaving of the single element accesses", "why_tests_cant": "A test runs one schedule; races and wrong results depend on the interleaving, whose number grows exponentially with the number of accesses.", "anchors": ["src/neo/fft/fft.hpp: fft_plan, fft, ifft", "src/neo/fft/reference/c2c_dit2_plan.hpp: c2c_dit2_plan::operator()", "src/neo/fft/reference/bitrevorder.hpp: bitrevorder_plan", "src/neo/fft/reference/kernel/c2c_dit2.hpp: c2c_dit2_v3", "src/neo/fft/rfft.hpp: rfft_plan", "src/neo/fft/fallback/fallback_rfft_plan.hpp: _buffer"]}
{"id": "C74", "title": "Work of an FFT call", "statement": "The elements an FFT call reads and writes, and their order, do not depend on the data: a call takes the same accesses for every input and whatever a real plan's buffer holds. A complex call of n = 2^p points makes exactly (13 n + 7 (p - 1) n - 5 2^ceil(p/2)) / 2 accesses, at most n (3.5 p + 3), in both directions; a real forward call 3 n + 2 more, a real backward call 4 n more. Calls in concurrent threads (as in C73) together take exactly the sum of their accesses, whatever the schedule.", "quantifier": "every order 1..27, every input and buffer content, both directions, complex and real plans, every number of threads and schedule", "why_tests_cant": "Timing tests sample inputs and cannot exclude an input that takes longer; a real-time caller needs the worst case for all.", "anchors": ["src/neo/fft/reference/c2c_dit2_plan.hpp: c2c_dit2_plan::operator()", "src/neo/fft/reference/bitrevorder.hpp: bitrevorder_plan", "src/neo/fft/reference/kernel/c2c_dit2.hpp: c2c_dit2_v3", "src/neo/fft/fallback/fallback_rfft_plan.hpp: fallback_rfft_plan::operator()"]}
{"id": "C75", "title": "Rounding error of real, short-time, cosine, direct and arbitrary-size transforms", "statement": "In binary32 and binary64 (u = 2^-24 or 2^-53), whatever calls the plan has served before: every bin of the real forward transform of n = 2^p samples is within 28 p u sqrt(n) norm(x) of the DFT, every sample of the real backward transform of any bins within the same multiple of their mirrored norm, and forward followed by backward returns n times the signal, each sample within 71 p u n norm(x). Every bin of every frame of a short-time transform is within (28 p + 2) u sqrt(n) norm(frame) of the DFT of the windowed frame; every coefficient of the cosine transform within 28 (2 p + 1) u sqrt(n) norm(x) of the DCT-II. The direct DFT of N points is within 40 N u times the sum of magnitudes: it rounds angles that grow with N, so its bound grows with N, not with its logarithm. A plan of any size N (Bluestein) makes, in either direction, an error vector of norm at most 481 log2(2N+1) u N X for inputs of norm at most X. Each bound but the last has an additional term of a few smallest normal numbers for underflow.", "quantifier": "every order 1..27, every signal or spectrum whose norm is 2^16 or more below overflow (2^32 for the round trip), every plan history, every frame, channel and bin, every size up to 2^18 for the direct transform, both formats; every size with 2N+1 <= 2^27 and every X in 2^-20..2^40 for plans of any size", "why_tests_cant": "Tests compare a few random signals with a tolerance picked by hand; the worst case over all signals of a size is not among them.", "anchors": ["src/neo/fft/rfft.hpp: rfft, irfft", "src/neo/fft/fallback/fallback_rfft_plan.hpp: fallback_rfft_plan", "src/neo/fft/stft.hpp: stft_plan", "src/neo/fft/dct.hpp: fallback_dct2_plan", "src/neo/fft/dft.hpp: dft", "src/neo/fft/fallback/fallback_dft_plan.hpp: fallback_dft_plan"]}
{"id": "C76", "title": "Rendering in the plugin's benchmark tab", "statement": "Between edits of the tab, whatever the order in which the render thread, the message loop and clicks on Render and on the engine list take turns: no turn fails, the files written so far are a prefix of one file per requested engine (in the tab's order for each click, clicks in order), each the engine's output for the tab's signal and response with its peak normalised to 1, and the lines shown so far are a prefix of one line per engine (180 and one for the quality test). Once the thread and the message loop have had enough turns all of them are there, each exactly once. The five dense engines write the same file, the convolution of signal and response cut to the signal's length. The sparse engine drops the bins of the response that are neither among the lowest ones nor within the range set in the tab of the loudest one; the plugin's convolution convolves the whole blocks of 4096 samples with the response file at the host's rate; the quality test prints, for 180 ranges from 90 dB down to 1 dB, the distance of the dense and the sparse spectrogram in the worst channel. Edits of the tab while nothing renders take effect as given. Closing the editor when nothing renders and no callback waits is safe. Refuted: an edit of signal, response or settings while an engine renders, a request seeing the signal of the time it was made, closing the editor while an engine renders, the DenseConvolution engine's file being a convolution.", "quantifier": "every signal, response and settings, every interleaving and number of clicks, render thread turns and callbacks, every behaviour of JUCE's resampler and convolution", "why_tests_cant": "The result depends on the interleaving of two threads and a message queue, and tests see one schedule.", "anchors": ["extra/plugin/src/ui/BenchmarkTab.cpp: runBenchmarks, runSparseConvolverBenchmark, runSparseQualityTests, loadSignalFile, setImpulseResponseFile, processSpecChanged, valueChanged, ~BenchmarkTab", "extra/plugin/src/ui/BenchmarkTab.hpp: runDenseBenchmark", "extra/plugin/src/dsp/DenseConvolution.cpp: dense_convolve, sparse_convolve"]}
{"id": "C77", "title": "Percentage of bins shown by the benchmark tab", "statement": "For every response longer than 512 samples the tab shows the percentage of bins of the response from sample 512 on (blocks of 512 samples, transformed with 1024 points) whose level relative to the loudest of these bins, A-weighted for the bin's frequency if weighting is on, is above minus the dynamic range; the pictures are drawn without error. It is between 0 and 100, grows with the range, does not depend on the gain of the recording or on its first 512 samples, and is positive for a response with a sound in it. Loading a response shows its name and percentage, a new range or weighting appends the new percentage. Refuted: bins below a range of more than 72 dB are left out (all are counted without weighting, levels end at -72 dB); responses of up to 512 samples can be loaded.", "quantifier": "every response, number of channels, sample rate, range and weighting, as long as the counters do not overflow", "why_tests_cant": "A test compares the percentage of one recording with a stored number; that it counts what it claims for all of them needs the definition.", "anchors": ["extra/plugin/src/ui/BenchmarkTab.cpp: FrequencySpectrumWeighting, setImpulseResponseFile, runWeightingTests, updateImages, valueChanged", "extra/plugin/src/dsp/Spectrum.cpp: powerSpectrumImage, powerHistogramImage", "src/neo/convolution/uniform_partition.hpp: uniform_partition", "src/neo/convolution/normalize_impulse.hpp: normalize_impulse"]}
{"id": "C78", "title": "Transforms of several signals packed into SIMD registers", "statement": "With a SIMD register as element type the radix-2 kernels transform every lane on its own: for every register width and order all kernels return the same registers, and lane j of the result is the DFT of lane j of the input. The split-complex register plan does so in both directions, in place and out of place, and one direction after the other multiplies every sample by the size. The scalar free functions fft and ifft on split-complex vectors are the forward and the backward DFT, in place and out of place. Refuted: the backward direction of the interleaved register plan is the inverse transform (it only reorders its input, the kernel call is commented out).", "quantifier": "every register width, order up to 27 (30 for the split plans), every input, every lane", "why_tests_cant": "The benchmark broadcasts one signal to all lanes, so mixing of lanes would not show, and tests fix one register width and a few sizes.", "anchors": ["extra/benchmark/src/simd_fft.cpp: simd_fft_plan, simd_split_fft_plan", "src/neo/fft/reference/kernel/c2c_dit2.hpp: c2c_dit2_v1, c2c_dit2_v2, c2c_dit2_v3, c2c_dit2_v4", "src/neo/fft/split_fft.hpp: fft, ifft"]}
{"id": "C79", "title": "The command line convolver, from files to files", "statement": "Given two readable WAV files with the same channels and sample rate and a writable output path, the tool exits with success and leaves a complete WAV file with the channels, sample rate and frames of the signal; every channel is the start of the convolution of that channel of the two files, all scaled by one positive gain, and unless silent the file peaks at exactly 1. A run that reports failure has written nothing; a run that reports success has written only to its third argument. A wrong number of arguments, files that differ in channels or sample rate, and one file that is missing or ends early are failures. Writing a buffer and loading the file gives the buffer and the rate back. Refuted: two unreadable inputs are a failure (the tool succeeds and replaces the output by an empty file); an output that cannot be created is reported (the result of opening it is ignored); sample rates of 2^31 and more are handled (converted to int for printing).", "quantifier": "every file system content, every command line, every file length up to 2^31 frames, every register width of the split convolver", "why_tests_cant": "The tool has no tests; file contents, lengths and the combinations of missing and mismatching files are unbounded.", "anchors": ["extra/cli/src/convolver.cpp: main", "extra/cli/src/wav.hpp: load_wav_file, write_wav_file"]}
{"id": "C80", "title": "Plugin editors show the host's current specification", "statement": "Editors may be opened and closed and the plugin prepared in any order, any number of times, also with an address used again: no editor that is gone is ever called, every open editor shows the sample rate, block size and channel count of the last prepareToPlay (44.1 kHz, 512, 2 before the first), its benchmark tab works with the same specification, and the processor listens to open editors only.", "quantifier": "every history of opening, closing and preparing in which only free addresses are opened and only open editors closed; every way of formatting numbers", "why_tests_cant": "Dangling listeners and stale labels show only in particular interleavings of open, close and prepare; histories are unbounded.", "anchors": ["extra/plugin/src/PluginProcessor.cpp: prepareToPlay, getProcessSpec, addProcessSpecListener, removeProcessSpecListener", "extra/plugin/src/PluginEditor.cpp: PluginEditor, ~PluginEditor, processSpecChanged", "extra/plugin/src/ui/BenchmarkTab.cpp: BenchmarkTab, ~BenchmarkTab, processSpecChanged"]}
{"id": "C81", "title": "Plugin parameters and saved state", "statement": "A gain slider at position x is a gain of 4x^2 (1 in the middle), the wet slider at x is x; positions and values are one another's inverse and monotone. Whatever is automated and restored, values stay in range. A state saved by one instance and restored in any other gives the parameters' values as of the last time they were written down (timer or restore); data that is no state changes nothing. Refuted: the saved state has the current values (what was automated since the last tick of the timer is lost, because the tree is saved without flushing).", "quantifier": "every slider position, every history of automation, timer ticks and restores of both instances", "why_tests_cant": "Which values are saved depends on the history of timer ticks and automation; the conversion of positions is over a continuum.", "anchors": ["extra/plugin/src/PluginParameter.cpp: createParameters", "extra/plugin/src/PluginProcessor.cpp: getStateInformation, setStateInformation"]}
{"id": "C82", "title": "Example transforms of the snippets", "statement": "The split-radix FFT writes the forward DFT of its input for every power of two; the radix-2 Stockham examples and the FFT unrolled at compile time leave the DFT of the stated sign in place; the three FFT-based DCT functions compute the DCT-II of every non-empty input. Refuted: the split-radix FFT run backward is the backward DFT (wrong for every size from 4 on, the factor -i is not conjugated); the radix-4 example computes the DFT of the sign asked for (wrong at every order from 1 on; with four elements it is the DFT of the other sign), although forward and then backward it returns the input times the size; its overload with a table computes the DFT (no table makes it do so).", "quantifier": "every order, every input, every previous content of the output or work array", "why_tests_cant": "A transform has infinitely many inputs and sizes, and the examples print a single impulse, for which the wrong direction gives the right answer.", "anchors": ["extra/snippet/split_radix.cpp: split_radix_fft_plan", "extra/snippet/stockham.cpp: c2c_stockham_dif2_plan", "extra/snippet/radix4.cpp: c2c_dit4, c2c_stockham", "extra/snippet/split_fft.cpp: static_fft_plan", "extra/snippet/dct.py"]}
{"id": "C83", "title": "Audio files of the plugin", "statement": "Loading a file delivers every sample and the rate of its recording (fewer than 2^31 channels and samples); a missing or unreadable file delivers an empty buffer. Loading at a rate keeps the channels, has the rate asked for and a length right to half a sample. A buffer written with 32 bits to a new file and loaded again is unchanged. Refuted: longer recordings are loaded completely (they are cut modulo 2^32 or undefined); a file that cannot be loaded stays empty when resampled (it gets one sample); loading before the sample rate is known keeps the recording (one sample is left); writing over an existing file replaces it (loading delivers the old recording); an empty buffer can be written (undefined).", "quantifier": "every recording, buffer, rate, bit depth and previous file content", "why_tests_cant": "Files of more than 2^31 samples do not fit a test, and rates and lengths are unbounded.", "anchors": ["extra/plugin/src/dsp/AudioFile.cpp: load, loadAndResample, writeToWavFile", "extra/plugin/src/dsp/AudioBuffer.cpp: resample"]}
{"id": "C84", "title": "abs, conj and polar", "statement": "neo::math::abs of an integer is exact for every type and value except the smallest int or wider, where it is undefined; of complex numbers it is a multiplicative norm unchanged by conj. polar(r, theta) has magnitude r, period 2 pi and multiplies like a complex exponential, every complex number is a polar(r, theta), and a negative r is undefined.", "quantifier": "every integer of 8, 16, 32 and 64 bits, every real and complex number", "why_tests_cant": "The tests try integers from -3 to 3 and a few floats; 64-bit integers cannot be enumerated.", "anchors": ["src/neo/math/abs.hpp: abs", "src/neo/math/conj.hpp: conj", "src/neo/math/polar.hpp: polar"]}
{"id": "C85", "title": "The real FFT of the snippets", "statement": "The complex transform of rfft.cpp computes the unscaled DFT for isign = -1 and the conjugate one for isign = 1. rfft(x, 1) of a power of two of samples stores the bins of the transform with the positive sign: bin 0, the real bin n/2, then bins 1 to n/2-1. rfft with any other sign undoes it up to the factor n/2. The timed loop of main never removes that factor, so run i reports (n/2)^i times the first sample. Fewer than two samples are undefined.", "quantifier": "every power of two up to 2^30, every vector of samples, every sign, every number of runs", "why_tests_cant": "The program prints one impulse of sixteen samples; sizes, samples and runs are unbounded.", "anchors": ["extra/snippet/rfft.cpp: fft, rfft, main"]}
{"id": "C86", "title": "The split-complex plan of the snippets and its benchmark", "statement": "static_split_fft_plan of any order from 1 on transforms separate real and imaginary arrays in place to the parts of their DFT, in either direction and with the same numbers as the interleaved static plan. A real array of another size than the plan's, or a shorter imaginary one, is accessed out of bounds. The timed calls of both benchmarks (forward, backward, scale) leave the buffer as it was, however often they run.", "quantifier": "every order from 1 on, both directions, all arrays, any number of timed iterations", "why_tests_cant": "The program prints one impulse of four samples; orders, signals and iterations are unbounded.", "anchors": ["extra/snippet/split_fft.cpp: split_fft_radix2_dit, static_split_fft_plan, interleave_benchmark, split_benchmark, timeit"]}
{"id": "C87", "title": "The Python reference transforms of the snippets", "statement": "digitreversal of radix4.py moves the element with the reversed digits to every position, for any radix from 2 on and any number of digits from 2 on, even or odd; the radix-2 transforms followed or preceded by it compute the DFT of the direction of their twiddles, the radix-4 transforms the forward DFT. Orders 0 and 1 raise an exception. Refuted: with the backward twiddles the radix-4 transforms compute the backward DFT.", "quantifier": "every radix from 2 on, every number of digits, every input", "why_tests_cant": "The file's own tests compare single random arrays of a few sizes; that the seed table reverses every index of every size is an induction over the digits.", "anchors": ["extra/snippet/radix4.py: digitreversal, fft2, dif_fft0, fft4, dif_fft4, foo"]}
{"id": "C88", "title": "Complex products of planar fixed-point arrays", "statement": "Multiplying complex q7 or q15 arrays held as separate real and imaginary rows is defined for all values, and every element is the exact product clipped to the range: the real part within one unit in the last place, the imaginary part at most two units low and never high. With fixed-point registers, + and - saturate on every lane, and q15 products on x86 give both parts within one unit unless a factor pair is min * min; on NEON the product is the scalar one. Refuted: that min * min is right on x86 registers, that negative products of q7x16 are right, and that formats with integer bits give every representable real part.", "quantifier": "all arrays of any length, all stored values, every register width and lane", "why_tests_cant": "2^64 quadruples per q15 element; the benchmark discards its results and never compares them.", "anchors": ["extra/benchmark/src/fixed_point.cpp: cmulp, cmulp_batch_fixed_point", "src/neo/fixed_point/simd.hpp: q7x16, q7x32, q7x64, q15x8, q15x16, q15x32"]}
{"id": "C89", "title": "Split-complex multiply-add of fixed-point vectors", "statement": "multiply_add(x, y, z, out) on split-complex q7 or q15 vectors, in place or not, is defined for all values; each element is the exact product clipped to the range plus z, clipped again, the real part within one unit and the imaginary part at most two units low and never high; on x86 q15 registers both parts are within one unit on every lane unless a factor pair is min * min. Accumulating m products in place costs at most m units (real) and 2m units (imaginary, never high) while the exact products and partial sums stay in range. Refuted: that the result is the exact x * y + z clipped once.", "quantifier": "all vectors of any length, all stored values, any number of accumulations, every register width and lane", "why_tests_cant": "The error bound is over all value combinations and any number of calls; the tests of multiply_add compare a few values with a tolerance.", "anchors": ["src/neo/algorithm/multiply_add.hpp: multiply_add(split_complex)", "extra/benchmark/src/multiply_add.cpp: split_multiply_add, batch_split_multiply_add"]}
{"id": "C90", "title": "Products of float arrays kept as small integers", "statement": "Storing two float arrays with elements in [-1, 1] as int8 or int16 (value times the largest integer, rounded) and multiplying them through compressed_accessor views is defined and gives in every position the product of the original elements up to 2e + e^2 + 2^-23, e being half a quantisation step plus 2^-22; for complex elements each part is within 4e + 2e^2 + 2^-21. Reading a stored array through the view and storing it again returns the same integers, the most negative included, so nothing drifts after the first store; distinct integers read as distinct floats.", "quantifier": "all float and complex arrays with parts in [-1, 1] of any length, every stored integer of int8 and int16", "why_tests_cant": "The bound and the exactness of the reload concern every float and every stored array; the benchmark checks no values at all.", "anchors": ["extra/benchmark/src/fixed_point.cpp: compress_float, compress_complex, cfloat_mul", "src/neo/container/compressed_accessor.hpp: compressed_accessor::access", "src/neo/algorithm/multiply.hpp: multiply"]}
