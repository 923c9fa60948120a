# Formal model of neo-sonar/neo in Rocq (Coq 8.16.1)

## 1. How the code is modelled

* **Outcome.** Every modelled function that touches memory, can overflow or can
  throw returns `outcome A` (`Base/Outcome.v`): `Ok a`, `UB` (out-of-range
  access, signed overflow, oversized shift, non-terminating loop) or `Throw`.
  A correctness theorem of the form `f x = Ok y /\ ...` therefore also proves
  that no modelled access is out of range.
* **Arrays.** `mdspan`/`mdarray`/`std::vector` of rank 1 are `list T`, read with
  `rd`, written with `wr` (both `UB` out of range).  Rank 2/3 are lists of rows.
  In-place algorithms are state transformers on the list.
* **Loops.** C++ `for` loops are `for_range`/`for_step`, i.e. folds over the index
  range in the program's order, the loop body being the program's body.  `while`
  loops carry fuel; running out of fuel is `UB`.
* **Integers.** Where width matters (bit tricks, ipow, idiv, fixed point, SIMD
  lanes, STFT frame count, Bluestein index squares) values are `Z` with explicit
  `mod 2^w` (unsigned) or `UB` on overflow (signed).  Array indices are `nat`: they
  are bounded by array lengths, and each theorem shows that every access is in range.
* **Floating point.** `float`/`double` are modelled by the exact real numbers `R`,
  complex numbers by pairs `C = R*R` (`Base/Cplx.v`).  Rounding, NaN, infinities and
  overflow are *not* modelled, except in the conversions of `fixed_point` and the compressed
  delay line (C05-C07, C49), in the fast logarithm (C62), in the radix-2 transform of C63, in the
  convolvers of C64 and C71, in the statistics of C72 and in the transforms of C75, which use
  Flocq's binary32 or binary64 rounding on reals.
* **assert** (`NEO_EXPECTS`-like `assert`s) are release-mode no-ops in the model; the
  theorem's preconditions are stated explicitly.

## 2. Layout

`theories/Base` infrastructure, `theories/Spec` small independent specifications
(DFT sum, convolution sum, digit reversal, ...), `theories/Model` the code, function by
function with citations, `theories/Proof` lemmas, `theories/Props` the property
theorems (statement, one-line proof, non-vacuity example, `Print Assumptions`).

## 3. Per-property plan

| id | modelled | proof method |
|----|----------|--------------|
| C01 | `bit_ceil_fallback` on Z with width parameter | bitwise lemma: or-smearing fills all bits below the top one |
| C02 | `bit_log2` loop, `next_order`, `size` | loop invariant, Z.log2 laws |
| C03 | `ipow` loop and shift overloads | induction on exponent, overflow as UB |
| C04 | `idiv` mod 2^w | Euclidean division |
| C05-C07 | `fixed_point` operators on Z with integer promotion; conversions with binary32 rounding (`rnd32`) | case analysis on clamp, rounding lemmas |
| C08,C56 | SIMD kernels per lane, remainder-first loop | pointwise loop lemma; refutations by computation |
| C09 | `fixed_point_complex` | component laws; refuted product by witness |
| C10-C12 | `csr_matrix` as three lists | invariant over insert histories, refinement to a finite map |
| C13,C14 | element-wise loops, SIMD batch loop, strided and transposed views | pointwise loop lemma, aliasing as in-place update |
| C15-C18 | statistics over R, int loop counters | sums, sqrt |
| C19,C34 | table construction, swap loops | digit-reversal specification, involution |
| C20-C22 | plan + kernels v1..v4 | block invariant: after stage s each block holds the DFT of a decimated subsequence |
| C23-C26 | split plan, rfft plan, deinterleave | reduction to C20, Hermitian symmetry |
| C27 | Bluestein plan | convolution theorem with chirp |
| C28 | direct dft loop | loop invariant |
| C29-C32 | radix-R plans | radix-R DIT/DIF step lemma; the twisted transform is specified in Spec/Twisted.v |
| C33 | dct2 plan | Makhoul identity |
| C35 | experimental rfft | witness refutation, round trip |
| C36,C37 | direct_convolve loops, fft_convolver | range splitting of sums; convolution theorem |
| C38-C40 | stft, uniform_partition | arithmetic; pointwise description |
| C41-C48 | fdl_index, overlap_add/save, convolvers as state machines | invariant over block histories, refinement to the convolution sum |
| C49 | compressed fdl and accessor | invariant over insert histories, rounding lemma |
| C50-C52 | windows, units, rfftfreq over R | trigonometry, ln/exp monotonicity |
| C53 | scalar_complex | field identities |
| C54 | command line tool: `convolve` and `main` without file access | per-channel loop invariant, C18, C44-C46 |
| C55 | ConstantOverlapAdd, the frame processor a parameter | invariant over block schedules relating buffers to the stream |
| C57 | a_weighting | derivative-free monotonicity of the gain |
| C58 | DenseConvolution on top of C55, with the resampler a parameter | reachability over call histories, C18, C40, C44, C55 |
| C59 | dense_convolve (all five convolver types, `Model/OfflineV2.v` for upola_convolver_v2) and sparse_convolve of the plugin | per-block and per-channel invariants, C46; the bin selection has its own specification (`Spec/Offline.v`) |
| C60 | Convolution and processBlocks of the plugin, the resampler a parameter | refinement: every call history agrees with a small machine (`Spec/PluginConv.v`) that remembers the samples heard |
| C61 | powerSpectrumImage, powerHistogram and powerHistogramImage of the plugin | loop invariants: histogram = counts of the positions processed, image = pixels of the bins processed |
| C62 | `fast_log2`, `fast_log10`, estimating `amplitude_to_db` on binary32 bits, every operation rounded | series bounds of the logarithm by derivatives, a polynomial inequality certified by Taylor shifts, rounding error analysis |
| C63 | the four radix-2 kernels, twiddle tables and plan again, with a rounding after every operation (`Model/RoundedFft.v`); binary32 and binary64; cosine and sine of the C library assumed within 2^-24 (2^-53); no contraction to fused multiply-add, no overflow | each kernel equals a chain of rounded stages; a stage is sqrt(2) times an isometry, so errors in the 2-norm add up per stage; Bernoulli's inequality |
| C64 | real transforms, `fft_convolve`, `uniform_partition` (through the STFT), overlap-save, overlap-add, delay lines, dense and split filters and the partitioned convolver again, with a rounding after every operation (`Model/RoundedConv.v`); same assumptions as C63 | the loops are those of the exact model, so the structural proofs are repeated for an abstract rounding; then norm bounds: C63 for the three transforms, one per multiply-add for the accumulation over the delay line |
| C65 | the Python module: `main.cpp` and the two `__init__.py` (`Model/PythonBindings.v`); NumPy arrays as memory, address, shape, byte strides and flags; pybind11's overload resolution and conversion | address arithmetic modulo 2^64 for the views; then C20, C21, C36, C37 and C52 for what is computed; the content of uninitialised results is a parameter of the theorems |
| C66 | the plans on Accelerate (vDSP), MKL and IPP and `scale` through BLAS (`Model/VendorFft.v`); the library calls are contracts: what their documentation says they compute, over the addressed cells | each wrapper refines the DFT on views for every reachable plan state; comparison with the portable plans through C20, C23-C25, C27, C33; IPP's DCT weights by the orthogonality of cosines |
| C67 | creation, move construction, move assignment, destruction and use of vendor plans as operations on a world of named objects and library handles (`Model/PlanLifetime.v`) | invariant over histories: owned handles are live and have one owner; the live handles that nobody owns are counted exactly |
| C68 | PluginProcessor, PerceptualConvolution and the parameters, with JUCE's SmoothedValue, DryWetMixer and NormalisableRange as documented (`Model/PluginEffect.v`) | the session lemma of C58 without reset() gives the wet stream; induction over blocks for gains and mix; the volumes have their own specification (`Spec/Effect.v`: `follows`) |
| C69 | the SSE2/AVX/AVX-512 batch types, complex numbers over them and `abs` of `complex32`, on IEEE 754 data with signed zeros, infinities and NaN (`Model/SimdBatch.v`) | half-precision results computed in single precision: rounding twice equals rounding once (Flocq's double rounding theorems, directed modes by hand); lanes by induction |
| C70 | no new code: the six partitioned convolvers (`Model/Convolution.v`, `Model/Stft.v`) and `sparse_convolve` (`Model/PluginConvolution.v`), filters given as arbitrary matrices | the output is linear in the filter matrix; each bin of a window is at most the sum of its samples; the overlap-add windows are half empty, so both methods get the same bound; a filter that only passes the mean attains it |
| C71 | `direct_convolve` with a rounding after every operation (`Model/RoundedStats.v`, the same loops as C08 over rounded addition and multiplication) | each sample is a sum in a fixed order; the error of such a sum by induction over its terms (`Proof/RoundedSums.v`); sums of multiples of one power of two are exact |
| C72 | mean, variance, standard deviation, (root) mean squared error, peak, energy and impulse normalisation with a rounding after every operation (`Model/RoundedStats.v`) | the error of an ordered sum (C71), of a quotient by a rounded count and of a rounded square root; the variance is a mean squared difference from the computed average, which differs from the true variance by the squared error of the average; Minkowski for the energy of the result |
| C73 | the complex plan (bit reversal, kernel v3) and the real plan (copy, transform, copy; mirrored copy and back) access by access over a shared memory, as many threads as there are calls (`Model/Concurrent.v`); threads, schedules and races in `Spec/Interleaving.v`, calls in `Spec/Jobs.v` | each program run alone equals the sequential model (C20, C24); it only touches the objects it may; an invariant over steps: each thread is where it would be alone after as many accesses, on the objects it uses; for the refutation the schedule is built from the runs of the parts |
| C74 | the same programs; `Spec/Accesses.v` lists the accesses of a run | the trace of a loop is the concatenation of the traces of its bodies, which only depend on the index and on the reorder table; the number of swaps from the number of binary palindromes |
| C75 | real transforms, STFT (`Model/RoundedConv.v`), DCT-II and direct DFT (`Model/RoundedReal.v`), Bluestein's plan of any size (`Model/RoundedBluestein.v`) with a rounding after every operation, on plans after any history of calls | invariant over calls (the tables stay, the buffer keeps its length); the norm bound of C63 per bin, Parseval for the window's roundings, the error of the computed angle for the DCT factors and the direct weights, an ordered sum for the direct DFT; for Bluestein the computed chirps' errors through three transforms, a product of spectra (Cauchy) and the scaling, all in norm |
| C76 | the benchmark tab (`Model/BenchmarkTab.v`): message thread, queue of the one-thread pool, callbacks, members read and written by each step | invariant over event lists: files and lines done ++ those of the running job, the queue and the inbox = those requested (`Spec/Benchmark.v`); an access while the other thread uses the same member is undefined behaviour; the files and the printed errors from C17, C39, C59, C60 (`Props/BenchmarkFileProps.v`) |
| C77 | updateImages and runWeightingTests of the benchmark tab (`Model/BenchmarkTab.v`) | counter invariant over the triple loop, exchange of sums; the normalisation's gain cancels against the loudest bin; `Spec/Share.v` says it on the response as recorded |
| C78 | the radix-2 kernels over an arbitrary element type, the two register plans of the benchmarks, free functions of `split_fft.hpp` (`Model/SimdFft.v`) | parametricity: the kernels preserve every relation their operators preserve, used for "lane j of the register is the scalar" |
| C79 | `main` of the command line tool over a file system of WAV files, `load_wav_file`, `write_wav_file` (`Model/CliMain.v`) | the layout_left buffer is the interleaved file; C54 for the samples; case analysis for every way out; the wrap of the frame count for empty buffers |
| C80 | listener list, specification and editors of the plugin (`Model/PluginEditors.v`) | invariant over the history: listeners are exactly those of the open editors, each shows the current specification |
| C81 | parameter ranges, automation, timer, saved state (`Model/PluginState.v`) | the skewed range is 4x^2; invariant over the history: a value is in the tree or marked as changed |
| C82 | example transforms of extra/snippet (`Model/Snippets.v`) | split-radix recursion refined to a recursive function, that to the DFT by two-step induction; stages of the Stockham and unrolled plans are those of the library; DCT by reindexing a cosine sum |
| C83 | plugin's audio files, buffer sizes of resample() (`Model/AudioFile.v`) | case analysis with explicit conversions to int; rounding to the nearest integer (Flocq); JUCE's reader, writer and streams as documented |
| C84 | abs, conj, polar (`Model/MathFunctions.v`) | promotion and range of each integer type; field and trigonometric identities |
| C85 | real FFT of extra/snippet/rfft.cpp (`Model/SnippetRfft.v`) | loop invariant over twiddles with a frame per block, refined to the stages of C16; twiddle recurrence is the angle addition formula; recombination of even and odd halves; induction over the runs |
| C86 | split-complex plan and benchmarks of extra/snippet/split_fft.cpp (`Model/SnippetSplit.v`) | simulation: every stage on two arrays is the interleaved stage followed by taking parts; inverse DFT for the benchmark; an iteration that is undefined in every reachable state for arrays of the wrong size |
| C87 | Python transforms of extra/snippet/radix4.py (`Model/RadixPy.v`) | seed table by nested loop invariants; the swapped index pairs (i, j, z) cover all indices once, with digit reversal exchanging i and j; stages by disjoint butterflies, then the decimation identities of the DFT |
| C88 | planar complex products of extra/benchmark/src/fixed_point.cpp and the fixed-point register classes (`Model/FixedBench.v`) | loop invariant; a truncated product loses at most one unit, a rounded one half a unit, clipping (`Spec/FixedRange.v`) is monotone and 1-Lipschitz |
| C89 | multiply_add of split-complex vectors over fixed-point numbers and registers, as extra/benchmark/src/multiply_add.cpp calls it (`Model/FixedBench.v`) | loop invariant with the output as possible third operand; error of one call from C88's; induction over the calls, clipping being 1-Lipschitz |
| C90 | float and complex arrays stored as int8/int16 and multiplied through compressed_accessor views (`Model/CompressedMul.v`) | C49's element error, propagated through the product; the reload from a relative error analysis: every stored value is recovered to well under half a unit |

Every theorem is stated in a `Props` file next to the definitions of `Spec` it needs; a
`_refuted` theorem shows that the documented or expected behaviour fails, normally beside a
theorem that says exactly what the code does instead.

## 4. Trusted base

* The Coq 8.16.1 kernel.
* `Print Assumptions` of every property theorem, printed at the end of each `Props` file and
  listed in section 6.  Theorems about integers and lists are closed under the global context.
  Theorems about real and complex numbers use the axioms of the standard library's `Reals`:
  `ClassicalDedekindReals.sig_forall_dec`, `ClassicalDedekindReals.sig_not_dec`,
  `FunctionalExtensionality.functional_extensionality_dep`.  Those about binary32 rounding
  (through Flocq) and about powers, logarithms and decibels (through the standard library)
  also use `Classical_Prop.classic`.  No other axioms.
* The correspondence between the C++ text and the Gallina model, which is by inspection; every
  definition cites the lines it models.

### Modelled code

`src/neo/algorithm/*` (portable paths), `bit/{bit_cast,bit_ceil,bit_log2}`, `complex/scalar_complex`,
`container/{csr_matrix,compressed_accessor}`, all of `convolution/*`, `fft/{dct,dft,fft,order,
rfft,rfftfreq,split_fft,stft,twiddle}`, `fft/experimental/rfft`, `fft/fallback/*`,
`fft/reference/*` with all kernels, `fft/backend/{ipp,mkl,vdsp}`, `algorithm/backend/cblas`, `fixed_point/*` (scalar, SSE2, SSE4.1, NEON kernels, register classes),
`math/{a_weighting,abs,conj,fast_math,float_equality,idiv,imag,ipow,is_even,is_odd,polar,real,windowing}`, `simd/*`, `testing/testing.hpp: generate_identity_impulse`, `unit/*`,
`extra/benchmark/src/simd_fft.cpp: simd_fft_plan, simd_split_fft_plan`, `extra/benchmark/src/fixed_point.cpp: cmulp, cmulp_batch_fixed_point, cfloat_mul`, the multiply-add calls of `extra/benchmark/src/multiply_add.cpp`, `extra/plugin/src/{PluginEditor,PluginParameter}.cpp` (not layout and painting; JUCE from its documentation and sources), `extra/cli/src/convolver.cpp`, `extra/cli/src/wav.hpp` (dr_wav by its documentation), `extra/python/src/main.cpp` and its `__init__.py` files,
`extra/snippet/{radix4,split_fft,split_radix,stockham}.cpp` and `{dct,radix4}.py`,
`extra/plugin/src/dsp/{AudioBuffer,AudioFile,ConstantOverlapAdd,Convolution,DenseConvolution,
Spectrum}`, `extra/plugin/src/{PerceptualConvolution,PluginParameter,PluginProcessor}`,
`extra/plugin/src/ui/BenchmarkTab` without its layout and file dialogs.

### Code that is not modelled

* The vendor libraries themselves: C66 takes from their documentation what a call computes;
  their rounding, status codes and memory are not modelled.  `config/xsimd.hpp` and the
  choice between back ends.
* `container/mdspan.hpp` (mdspan, mdarray and submdspan of the reference implementation):
  layouts are modelled as index functions where a property is about them (C13, C14).
* `math/{log2,precision}.hpp`, random test signals.
* The WAV format itself (dr_wav), JUCE itself including its resampler (C68
  states what it takes from it), the layout of the plugin's editor, the remaining benchmarks, the comparisons and plots of the Python snippets; pybind11 and NumPy themselves (C65 states
  what it takes from them).
* Floating point rounding (except C05-C07, C49, C62-C64, C69, C71, C72, C75), memory allocation failure.  Threads only in C73
  (FFT plans, sequentially consistent element accesses, which without races is all there is) and
  C76 (turns of two threads; overlapping accesses of a member are undefined behaviour);
  sizes and array pointers of a plan are only read by calls and are constants in that model.

## 5. Where the code and the expected property disagree

Each item is a theorem (ids in brackets).

1. `fixed_point_complex` multiplication is wrong for almost all operands [C09]; SSE4.1 array
   multiplication differs from the scalar operator [C08]; 32-bit storage overflows [C09].
2. `ipow` shift overloads return wrong values where the loop would overflow [C03]; `idiv` on
   unsigned operands wraps near the maximum [C04].
3. `csr_matrix::insert` at the same place twice leaves two entries: reads see one, multiply-add
   both; multiply-add into a different output leaves other columns unset [C12].
4. Split multiply-add with operands of different layouts pairs wrong elements [C13].
5. Statistics count with an `int`: undefined from 2^31 elements on [C15].  Extents are only
   asserted; complex `mean_squared_error` compares magnitudes [C16].
6. A silent channel caps the factor of `normalize_impulse` at 1 [C18].
7. Order-0 transforms access out of range: FFT [C20], split FFT [C23], DCT [C33]; kernel v4 is
   wrong for order 1 [C22]; Bluestein of size 0 [C27]; `dft` in place [C28].
8. Stockham radix-2 plans run in the opposite direction [C31]; `dit4`, `dif4` and
   `stockham_dit4` do not compute the DFT [C32]; the experimental rfft does not either [C35].
9. `fft_convolver` with two single samples is out of range [C37].
10. `num_sftf_frames` divides by zero if the overlap equals the frame, frames longer than the
    transform are out of range, the window is sampled over the transform size [C38, C39].
11. `uniform_partition` with a size that is no power of two stretches the response [C40, C44];
    partition size 1 is out of range [C44].
12. `overlap_save` with block size 3 is misaligned [C42]; `overlap_add` reads out of range if
    the transform is shorter than two blocks and loses the tail of long filters [C43].
13. `overlap_add_convolver`: calls of part of a block corrupt the output, a second `filter()`
    does not reset the position and may index out of range [C47].
14. `compressed_fdl` does not saturate: components above 1 come back with the opposite sign [C49].
15. Hann and Hamming windows of size 1 divide by zero [C50]; the vector `rfftfreq` takes the
    vector length for the transform size [C52]; `math::imag` of a real is the real [C53].
16. The command line tool's `convolve` needs as many response channels as signal channels and
    fewer than 2^31 frames [C54].
17. `ConstantOverlapAdd::prepare` does not clear its buffers; its gain is 2 [C55].
18. `DenseConvolution::resetFrame` is empty: tails survive `reset()`; a response with fewer
    channels than the host is read out of range [C58].
19. `sparse_convolve` with `lowBinsToKeep = 0` always loses bin 0, whatever the threshold, as
    the A-weighting of 0 Hz is minus infinity [C59].
20. The plugin's `Convolution`: a prepared block size that is no power of two writes out of
    range at the first full block; blocks of any other size are passed on unconvolved and the
    stream has a gap there; `processBlocks` therefore leaves the end of a signal dry; a load
    that fails drops the tail of what was played [C60].
21. `powerSpectrumImage` weights a bin with the weight of the mirrored bin; `powerHistogram` has
    144 buckets but without weights uses the first 73 only, as levels end at -72 dB;
    `powerHistogramImage` rounds a NaN when all bins are in the last bucket [C61].
22. `fast_log2` of zero and of every subnormal is between -127 and -126, not minus infinity or
    down to -149; `amplitude_to_db` hides this with any floor above -700 dB [C62].
23. Python: `fft(x, n)` with n below the length writes out of range, with n above it transforms
    uninitialised memory; both crop or pad in NumPy.  Length 1 is out of range.  A real float64
    array is converted to complex64, and mixed float32/float64 operands of `convolve` to
    float32.  Byte strides that are no multiple of the element size read the wrong elements;
    read-only arrays are refused.  `convolve` checks the rank of its first operand twice, so a
    matrix as second operand is accepted; `method="fft"` with an empty operand returns
    uninitialised memory.  `rfftfreq(n)` has n entries, NumPy's n/2 + 1 [C65].
24. Vendor plans: `dct2_plan` on IPP is the orthonormal transform, the portable one is not
    normalised, so the result depends on the build; order 0 works on the vendor plans and is out
    of range on the portable one; the float IPP plans take order 28, the others 27, the
    split-complex Accelerate plan has no limit [C66].
25. `scale` through BLAS with 32-bit integers leaves a contiguous vector of 2^31 to 2^32 - 1
    elements as it is [C66].
26. Move assignment of Accelerate and MKL plans leaks the handle of the plan assigned over; a
    moved-from IPP plan keeps a pointer to the handle it gave away, which dangles once the new
    owner is gone [C67].
27. The plugin tells the host that it has no latency and no tail; the wet signal is late by the
    frame size minus one, the dry one is not, so a mix of both is a comb filter.  prepareToPlay()
    does not clear the output buffer: the first samples are whatever was in memory.  The wet
    signal is twice as loud as the normalised response makes it.  The impulse response has a path
    in the author's home directory [C68].
28. `abs` of a `complex32` is infinite as soon as one part reaches 256 (the type goes up to 65504)
    and zero when both parts are at most 2^-13 (the type goes down to 2^-24), because the squares
    are formed in half precision [C69].
29. `direct_convolve(a, b)` and `direct_convolve(b, a)` are bit for bit the same for operands of
    different lengths only: for equal lengths the additions run in the opposite order [C71].
30. `mean` of many floats stops adding at 2^24: the mean of 2^25 ones is 1/2.  `normalize_peak`
    of [41] in float gives 1 - 2^-24.  `normalize_energy` leaves [2^-80] in float as it is, and
    `mean_squared_error` of 2^-80 and 0 is 0, because the squares underflow [C72].
31. A real FFT plan shared by two threads is a race, although a call looks like a pure function of
    its arguments: it transforms in a buffer of the plan [C73].
32. Benchmark tab: changing the signal, the response or a setting while an engine renders is a data
    race on the members; a render that waits in the queue uses the signal loaded later; closing
    the editor while an engine renders leaves callbacks that use the destroyed tab; the
    DenseConvolution engine writes uninitialised memory first, and nothing else for a short
    signal; a response with fewer channels than the signal is read out of bounds by the dense
    engines.  The engine selected at first, "dense", does not exist, so Render does nothing [C76].
33. Benchmark tab: levels end at -72 dB, so without weighting the default dynamic range of 90 dB
    counts every bin, those of silence too.  A response of fewer than 512 samples is sliced out of
    bounds when loaded, one of exactly 512 samples asks for 2^55 partitions [C77].
34. `simd_fft_plan` of the benchmarks: the backward direction only reorders its input [C78].
35. Command line tool: when neither input can be read the tool reports success and replaces the
    output by a file without channels; an output that cannot be created goes unnoticed and frames
    are written through a handle that is not open; a sample rate of 2^31 or more is converted to
    int [C79].
36. Plugin: getStateInformation() writes the tree without flushing the parameters to it, so what was
    automated since the last tick of JUCE's timer is missing from the saved state [C81].
37. Snippets: split_radix.cpp uses the factor -i in both directions, so its backward transform is wrong
    for every size from 4 on; c2c_dit4 of radix4.cpp uses i for the forward sign and so computes the
    transform of the other sign on four elements; its overload with a table is wrong for every table [C82].
38. Plugin: load() converts the 64-bit length of a file to int, so recordings of 2^32 samples and more
    are cut without notice and those from 2^31 on are undefined; a file that cannot be loaded is
    resampled to a buffer of one sample; writeToWavFile() opens an existing file at its end (JUCE's
    createOutputStream()), so the old recording is what is read back; it also refers to sample 0 of
    buffers that have none [C83].
39. `math::abs` of the smallest int, long or long long is undefined [C84].
40. Snippets: the timed loop of rfft.cpp transforms its buffer forth and back 10000 times without the
    factor 2/n, so with 1024 samples run i works on 512^i times the impulse, beyond the range of
    float from run 15 on [C85].
41. Snippets: digitreversal of radix4.py raises IndexError for one digit, so none of its transforms
    runs at order 1; dif_fft4 and fft4 with the backward table wb do not invert the transform, as the
    factor j of the butterflies keeps its sign (foo() has that call as a comment) [C87].
42. Fixed-point registers on x86: q15x8, q15x16 and q15x32 give (-1)(-1) = -1, q7x16 gives 127/128 for every
    negative product; fixed_point<int16, 14> arrays lose a real part that fits when one of its products
    saturates [C88].
43. multiply_add on split-complex fixed-point vectors clips x * y before adding z, so a result that fits
    can be off by almost the whole range [C89].

## 6. Assumptions of each theorem

What `Print Assumptions` prints, by set of axioms (full names in section 4).

Closed under the global context (91 theorems):

C01_bit_ceil, C01_bit_ceil_outside, C02_bit_log2, C02_next_order, C02_order_size_inverse, C03_ipow,
C03_ipow_const, C03_ipow_overflow, C03_overflowing_shift_gives_wrong_value, C04_idiv,
C04_idiv_narrow, C04_idiv_signed_overflow, C04_idiv_unsigned, C04_idiv_wraps_too_small, C04_parity,
C05_results_in_range, C05_saturating_add, C05_saturating_neg, C05_saturating_sub, C06_multiply,
C06_only_min_times_min_clamps, C08_array_add, C08_array_multiply, C08_array_subtract,
C08_sse41_multiply_16bit, C08_sse41_multiply_8bit, C08_sse41_q15_within_one, C08_sse41_q7_refuted,
C09_complex_add, C09_complex_sub, C09_product_32bit_undefined, C09_product_actual,
C09_product_of_reals_refuted, C09_product_refuted, C10_build, C11_insert_get, C11_insert_history,
C11_reachable_wf, C12_multiply_add_out_of_place, C14_binary, C14_copy, C14_copy_too_short, C14_fill,
C14_matrix_binary, C14_matrix_copy, C14_matrix_unary, C14_vector_view_binary, C14_vector_view_copy,
C14_vector_view_multiply_add, C14_vector_view_unary, C19_bit_reversal, C19_bit_reversal_scalar,
C34_digit_reversal, C37_single_samples_out_of_bounds, C38_covers, C38_empty_signal,
C38_no_hop_divides_by_zero, C38_num_frames, C41_fdl_index, C50_size_one_refuted, C56_simd_loop,
C56_simd_loop_split, C66_scale, C66_scale_long_refuted, C67_all_released, C67_empty_plan_undefined,
C67_full_plan_runs, C67_ipp_live_owned, C67_ipp_moved_from_dangles, C67_leak_account,
C67_no_leak_refuted, C67_only_empty_plans_fail, C67_overwritten_is_leaked, C67_unique_owner,
C68_layouts, C69_broadcast, C69_complex, C69_memory, C76_order, C79_wav_round_trip, C84_abs_integer,
C87_digit_reversal, C87_digit_reversal_short, C88_fxp14_refuted, C88_register_add_sub,
C88_register_multiply_neon, C88_register_multiply_q15, C88_register_multiply_q7,
C88_register_product_min_refuted, C88_register_widths, C89_clipped_once_refuted

`sig_forall_dec` (24 theorems):

C13_interleaved_multiply_add, C13_simd_equals_scalar, C13_simd_multiply_add, C13_split_multiply_add,
C14_copy_from_split, C14_copy_to_split, C14_scale, C36_both_empty, C46_keep_all,
C50_generate_window, C50_rectangular, C53_components, C66_orders, C71_commutative, C71_into,
C80_editors, C80_prepare, C83_empty_buffer_undefined, C83_existing_file_refuted, C83_load,
C83_load_failed, C83_long_file_refuted, C83_other_depths, C83_write_then_load

`sig_forall_dec`, `functional_extensionality_dep` (60 theorems):

C05_comparisons, C06_multiply_error, C12_double_insert_refuted, C12_multiply_add,
C12_out_of_place_refuted, C13_crossed_layout_refuted, C14_scale_complex, C15_long_vector_overflows,
C15_mean, C15_mean_affine, C15_mean_bounds, C15_variance, C15_variance_affine, C15_variance_sign,
C16_allclose, C16_allclose_default, C16_allclose_default_reflexive, C16_allclose_exact,
C16_allclose_monotone, C16_allclose_reflexive, C16_allclose_symmetric,
C16_mismatched_extents_refuted, C17_normalize_peak, C17_normalize_peak_idempotent,
C17_normalize_peak_rescaled, C36_bilinear, C36_commutative, C36_direct_convolve,
C36_direct_convolve_complex, C36_into, C49_error, C52_rfftfreq, C52_rfftfreq_vector,
C52_vector_overload_refuted, C53_complex, C53_compound_assignment, C53_field,
C53_imag_of_real_refuted, C55_block_sizes_do_not_matter, C55_identity_has_gain_two, C55_overlap_add,
C55_prepare_alone_does_not_clear, C55_reset_starts_over, C63_kernels_bit_identical, C65_rfftfreq,
C65_rfftfreq_length_refuted, C68_all_dry, C68_balanced, C68_constant_mix, C68_no_clicks,
C83_failed_load_resampled_refuted, C83_load_and_resample, C83_rate_zero_refuted, C88_planar_product,
C88_planar_product_q, C88_register_product_q15, C88_register_product_q7_refuted, C89_accumulate,
C89_multiply_add, C89_register_multiply_add

`sig_forall_dec`, `sig_not_dec`, `functional_extensionality_dep` (195 theorems):

C15_standard_deviation, C16_allclose_complex, C16_complex_mse_refuted, C16_mse,
C17_normalize_energy, C17_normalize_energy_idempotent, C17_normalize_energy_rescaled,
C18_normalize_impulse, C18_normalize_impulse_vector, C20_fft_is_dft, C20_order_too_large_throws,
C20_order_zero_out_of_range, C21_convolution_theorem, C21_linear, C21_parseval, C21_round_trip,
C22_kernels_agree, C22_plans_agree, C22_v4_order1_differs, C23_agrees_with_complex_plan,
C23_order_0_out_of_bounds, C23_roundtrip, C23_split_fft, C24_plan_exists, C24_real_bins,
C24_rfft_forward, C24_rfft_forward_long_output, C25_irfft, C25_roundtrip, C26_deinterleave,
C27_constructor, C27_dft_plan, C27_roundtrip, C27_size_0_out_of_bounds, C28_dft,
C28_in_place_refuted, C28_roundtrip, C29_dif3_is_dft, C29_dif5_is_dft, C30_stockham_dif3,
C30_stockham_dif4, C30_stockham_dif5, C30_stockham_dif8, C31_stockham2_is_dft_refuted,
C31_stockham2_round_trip, C31_stockham2_runs_the_opposite_direction,
C32_radix4_computes_twisted_dft, C32_radix4_is_dft_refuted, C32_radix4_round_trip, C33_dct,
C33_order_0_out_of_bounds, C35_forward, C35_packed_dft_refuted, C35_roundtrip,
C35_size_2_out_of_bounds, C37_empty, C37_fft_convolve, C37_reused, C39_constructor,
C39_long_frame_out_of_bounds, C39_stft, C39_stft_default, C39_window_cut_off_refuted,
C40_any_block_size, C40_partitions, C40_restores, C42_block_size_3_refuted, C42_overlap_save,
C43_long_filter_refuted, C43_overlap_add, C43_short_transform_out_of_bounds, C44_any_partition_size,
C44_partition_size_1_out_of_bounds, C44_partition_size_3_refuted, C44_upols, C45_upola,
C46_convolution, C46_sparse, C46_split, C47_fewer_partitions_out_of_bounds, C47_filter_again,
C47_like_upola_convolver, C47_part_block_refuted, C47_whole_blocks, C48_causal, C48_causal_samples,
C48_delay, C48_linear, C48_reset, C50_hamming, C50_hann, C50_hann_overlap, C53_abs, C53_conj,
C54_convolve, C54_convolve_long_signal, C54_convolve_missing_channels, C54_main, C58_convolution,
C58_default_passes_through, C58_load_and_prepare, C58_missing_channels, C58_reset_silences_refuted,
C58_sessions, C59_dense, C59_dense_missing_channels, C60_calls, C60_dry, C60_failed_load_refuted,
C60_other_block_sizes_out_of_bounds, C60_process_blocks, C60_process_blocks_end_refuted, C60_stream,
C63_exact, C66_dct_interchangeable_refuted, C66_interchangeable, C66_interchangeable_dft,
C66_interchangeable_real, C66_interchangeable_split, C66_ipp, C66_ipp_copy, C66_ipp_dct,
C66_ipp_dct_round_trip, C66_ipp_dft, C66_ipp_dft_copy, C66_ipp_irfft, C66_ipp_rfft, C66_mkl,
C66_order_zero, C66_split, C66_vdsp, C68_aligned_refuted, C68_before_prepare, C68_latency_refuted,
C68_missing_channels, C68_no_response, C68_response, C68_silence_refuted, C68_tail_refuted,
C70_attained, C70_bounded, C70_convolution, C70_filter_change, C70_level, C70_rejected,
C73_any_schedule, C73_one_plan_many_threads, C73_shared_real_plan_refuted, C74_complex_cost,
C74_complex_cost_bound, C74_independent_of_data, C74_real_cost, C74_schedule_length,
C76_dense_convolution_refuted, C78_backward_only_reorders, C78_backward_refuted, C78_forward,
C78_split, C78_split_functions, C78_split_round_trip, C79_both_missing_refuted,
C79_high_rate_refuted, C79_mismatch, C79_one_missing, C79_success, C79_unwritable_refuted,
C79_usage, C79_writes, C82_dct, C82_dit4_four, C82_dit4_refuted, C82_dit4_roundtrip,
C82_dit4_table_refuted, C82_radix4_stockham, C82_split_radix_backward_refuted,
C82_split_radix_backward_small, C82_split_radix_forward, C82_static_plan, C82_stockham_fft, C84_abs,
C84_polar, C84_polar_negative_undefined, C85_fft, C85_inverse, C85_rfft, C85_short_undefined,
C85_timed_loop, C86_benchmarks_keep_signal, C86_plans_agree, C86_split_plan,
C86_wrong_size_undefined, C87_radix2, C87_radix4_backward_refuted, C87_radix4_forward,
C87_short_orders

`sig_forall_dec`, `sig_not_dec`, `classic`, `functional_extensionality_dep` (143 theorems):

C07_from_float, C07_from_float_high, C07_from_float_low, C07_from_float_monotone,
C07_from_float_undefined, C07_round_trip, C07_to_float_exact, C49_history, C49_out_of_bounds,
C49_overflow_refuted, C51_decades, C51_decibel, C51_mel_frequencies, C51_mel_frequencies_small,
C51_mel_increasing, C51_mel_inverse, C57_a_weighting, C57_a_weighting_reference,
C57_a_weighting_shape, C59_sparse, C59_sparse_drops_bin_0_refuted, C59_sparse_keeps_all,
C59_sparse_missing_channels, C59_sparse_silent, C61_bars, C61_bars_flat, C61_gain_invariant,
C61_histogram, C61_image, C61_image_flat, C61_image_weights_refuted, C61_no_bars_refuted,
C61_one_bucket, C61_quiet_bins_refuted, C62_decibels, C62_default_decibels, C62_fast_log2,
C62_subnormal, C62_subnormal_refuted, C63_fft_double, C63_fft_float, C63_fft_float_bins,
C63_roundtrip_double, C63_roundtrip_float, C64_fft_convolve_double, C64_fft_convolve_float,
C64_partitioned_add_double, C64_partitioned_add_float, C64_partitioned_double,
C64_partitioned_float, C64_split_add_bit_identical, C64_split_bit_identical, C65_convolve,
C65_convolve_converted, C65_convolve_rejected, C65_crop_refuted, C65_double_input_refuted,
C65_empty_operand_refuted, C65_fft, C65_fft_converted, C65_field_refuted,
C65_matrix_operand_refuted, C65_ortho_energy, C65_pad, C65_pad_refuted, C65_rejected,
C65_round_trip, C65_single_sample_out_of_bounds, C65_single_samples_out_of_bounds, C65_size_throws,
C68_automation, C68_automation_clamped, C68_defaults, C69_abs, C69_abs_accurate,
C69_abs_range_refuted, C69_abs_small_refuted, C69_double, C69_half16, C69_half8, C69_halves_agree,
C69_single, C69_value, C70_threshold, C71_agrees_with_fft, C71_commutative_refuted, C71_error,
C71_error_practical, C71_impulse, C71_multiples_exact, C72_mean, C72_mean_multiples,
C72_mean_practical, C72_mean_squared_error, C72_mean_within_range_refuted, C72_mse_zero_refuted,
C72_normalize_energy, C72_normalize_impulse, C72_normalize_peak, C72_peak_exactly_one_refuted,
C72_quiet_energy_refuted, C72_variance, C75_bluestein, C75_bluestein_plans_exist, C75_dct2, C75_dft,
C75_irfft, C75_plans_exist, C75_real_roundtrip, C75_rfft, C75_stft, C76_close,
C76_close_while_rendering_refuted, C76_dense_files, C76_edit_when_idle,
C76_edit_while_rendering_refuted, C76_finishes, C76_neo_file, C76_quality, C76_renders,
C76_snapshot_refuted, C76_sparse_file, C77_definite, C77_gain, C77_monotone, C77_percentage,
C77_positive, C77_quiet_bins_refuted, C77_short_response_refuted, C77_start_ignored, C77_tab,
C81_invalid_data, C81_positions, C81_save_restore, C81_save_restore_refuted,
C81_save_restore_settled, C81_values, C84_polar_covers, C90_complex_product, C90_distinct,
C90_product, C90_reload, C90_reload_array
