# Formal model of DEWETRON/otfft in Rocq (Coq 8.16.1)

## 1. Shape of the model

* **Arithmetic** (`Scalar.v`): every function of the model is polymorphic in a class `Ops` of scalar
  operations (add, sub, mul, div, neg, sqrt, cos, sin, int->double, pi, the literal constants sqrt(1/2),
  cos(pi/8), sin(pi/8), and the six real expressions that the SIMD products are made of).  No law is assumed.
  Three uses: (a) theorems about memory, schedules, races, determinism, undefined behaviour hold for *every*
  `Ops`, hence also for IEEE-754 doubles bit for bit; (b) functional theorems use the instance over Coq's real
  numbers (`RealOps.v`, exact arithmetic); (c) rounded instances: IEEE binary64 through Flocq (`Ieee.v`, C33)
  and rounding models over R (error bounds, see the table below).
* **Memory** (`Mem.v`): a memory maps locations (buffer id, element index) to `Free | Uninit | Val c`.
  A program is a tree of `Load / Store / Alloc / Ret / UB`.  Loading a cell that is not `Val`, storing to a
  `Free` cell, an int overflow, a call through a null pointer are the distinct outcome `UB`.  Arrays of double use the
  first component of the cell.  Buffers of the C++ objects (simd_array) are identified by their owner.
* **OpenMP** (`Omp.v`): a parallel region is a list of phases separated by barriers, a phase a finite family of
  loop iterations; a schedule assigns them to any number of threads; small-step semantics interleaves the individual
  loads/stores of all threads in every possible way.
* **Objects** (`Object.v`, `Engine.v`, `History.v`): a method call is a sequence of allocations and parallel regions;
  `Outcome c m m'` says that the call is defined, completes, every execution under every schedule ends in m', no reachable state is racy,
  undefined or stuck.  `*_history b (Some N) m` is the set of memories that *any* sequence of setups, legal calls and foreign
  writes can produce.
* **Kernels**: `Model{Dif,Dit}{4,8,16}.v` are generated from the C++ text by `tools/kernels.py` (a translator for
  the straight-line kernels: loads, butterflies, stores, `#pragma omp`), the result is committed and is the model.  Everything else is transcribed by hand.
  Every definition cites file and lines.
* **SIMD** (`Simd.v`): the helper functions of `otfft_misc.h` are modelled per build over records of 2/4 doubles;
  C33 proves them lane-wise, which is what entitles the kernels to be written per lane ("vblock": load all lanes of all operands, then store all lanes of all results).
* **Allocation** (`ModelArray.v`): a second, coarser model of the ownership of memory blocks with an allocator that may fail at any call.
* **Factory** (`ModelFactory.v`): CPUID/XGETBV words, compiled-in back ends, decision tables, deleter.

## 2. Trusted base

* Coq's kernel (`coqc`/`coqchk` 8.16.1, `vm_compute` conversions included), and the reading of the C++ text.
* **Axioms** (printed by `Print Assumptions` under every property theorem):
  * theorems over every `Ops`, the factory theorems (C26), the ownership theorems (C27, C32, C54, C55), C12, C15, C68 (first two), C33_helpers_are_lanewise, C33_moves, C33_unused_helpers,
    C36: *Closed under the global context*;
  * theorems over the reals (C01-C05, C13, C14, C16-C23, C28-C31 values, C56, C57, C59, C60, C61 but C61_ieee_energy, C63 but its first and last theorems, C64 in exact arithmetic, C65, C67, C68_quarter_table, C69 but its first and last theorems, C70 but its first theorem, C71 but its integer theorems, C33_forward_every_build, C33_same_programs, C33_exact_quotient): `ClassicalDedekindReals.sig_forall_dec`,
    `ClassicalDedekindReals.sig_not_dec`, `FunctionalExtensionality.functional_extensionality_dep` (standard library reals);
  * theorems using Flocq (C33_bit_for_bit, C33_fma_differs, C34, C35, C37–C43, C49–C53, C58, C59_peak, C59_peak_found, C61_ieee_energy, C62, C63_two_dimensions_accuracy, C64_ieee_correlation, C64_integer_correlation, C66, C69_image_accuracy, C71_integer_stream, C71_integer_every_run): additionally `Classical_Prop.classic` (standard library).
  No axiom of our own, no functor, no module type.  Libraries used: Coq stdlib; Flocq (definitions and lemmas, no axioms of its own).
* **Not modelled / trusted**: compiler, OpenMP runtime, libm (cos/sin/sqrt are functions of `Ops`), operating system, exceptions other than a failed allocation.
  The hardware memory model: race freedom (C10) is proved for interleavings, which suffices for DRF programs.

### Simplifications (each also noted at the definition)
* Lengths are `nat` everywhere except in `ModelLength.v` (C54), which takes every `int` as the argument of setups and constructors and models their memory
  events; there requests above PTRDIFF_MAX bytes are assumed to fail.  `int` is 32 bit, `size_t` 64 bit.
* int overflow is checked (outcome `UB`) for every product that is not itself an array index (`imul`, `mul_ok`); array indices are computed in `nat`, and
  stay inside arrays of at most 2^30 elements by C07, so they fit an int.
* `std::nowait` constructs: only the last construct of a region carries `nowait`; it is followed by the region's implicit barrier.
* The six-step index tables (`index_array` template recursion) are a pure table function; the eight `part1/part2` calls of the eight-step are a loop `for_ 8`.
* Bluestein: values loaded and stored in the same iteration are forwarded as in the C++ locals.
* `simd_malloc(0)` returns a non-null block.  Copying of `simd_array` is modelled only in C27_array_copy_released_twice.
* `ModelArray.v` over-approximates accesses of a method call by "may access every array of the object".
* The `-ffp-contract` freedom of the compiler is not modelled: GCC's default for non-ISO mode contracts `a*b+c` when FMA is available, the x86-64 back ends here are compiled without `-mfma`.
* CMake logic: not modelled, except the flags that decide the builds of C33.
* C46-C48: application threads are interleaved sequentially consistently (no weak memory; the theorem excludes data races, for which C++ then guarantees sequential consistency). Blocks are identified by their owner, so allocations of different objects never collide; the allocator itself is taken to be thread-safe. Scalar members (N, pointers) are parameters of the calls: transforms only read them, setup counts as writing every block of the object.
* C34, C35, C37–C40, C42, C43: floating point as reals with a rounding function of relative error u above the smallest normal number phi and absolute error u*phi below it (gradual underflow): no overflow, no NaN; every data operation charges u*(|x| + phi), and tables and scale factors are shown to stay far above phi; the bounds are eps*(‖exact‖ + floor), floor = 2 phi N (C34); cos/sin with a bounded absolute error; `mysqrt` with relative error 3/2 u on powers of two up to 2^24 (for binary64 this is proved of its modelled recursion, C41); the tables are those computed by `setup` in the same arithmetic.

## 3. Properties

| id | modelled | how it is proved | status |
|----|----------|-----------|---|
| C01,C02 | all kernels reachable from `FFT0` | Stockham invariant by induction on the remaining length: stage (n,s) leaves for every q<s the n-point DFT of the strided subsequence; butterfly identities; one generic loop lemma for memory | proved |
| C03 | scale modes | same induction carrying a scale factor | proved |
| C04,C05 | - | DFT inversion and Plancherel over R + C01..C03 | proved |
| C06 | dispatch case 0 | the identity claim is refuted for ComplexFFT(1), RealFFT/RealDCT(2): UB from the model; proved for the others | proved |
| C07 | bounds and initialisation are part of the semantics | outcome is not UB + footprint of every reachable state | proved |
| C08 | work area arbitrary | corollary of the functional form over any `Ops` | proved |
| C09,C10 | interleaving semantics | footprint disjointness => all interleavings equal the sequential run; instance per loop | proved |
| C11 | checked int products | iff with "all prime factors <= 46340", and UB otherwise | proved |
| C12 | factor search | well-founded measure; smallest divisor | proved |
| C13,C14 | radix 4/8/16 DIF/DIT, six/eight step | as C01; matrix factorisation of the DFT | proved |
| C15 | dispatch table | case analysis | proved |
| C16-C18 | RFFT | split/merge identity over R | proved |
| C19,C20 | DCT0, DCT | DCT-II via RFFT | proved |
| C21-C23 | Bluestein | chirp identity + circular convolution | proved |
| C24,C25 | objects as state machines | induction over call histories | proved |
| C26 | factory | case analysis over all feature words | proved |
| C27,C32 | ownership with failing allocator | invariant by induction over operations; block sizes compared with the buffers of the data model (`PropSizes.v`) | proved |
| C28 | table initialisers | exact values over R, all entries written | proved |
| C29 | - | linearity of DFT + C01 | proved |
| C30 | serial vs parallel code | both denote the same function | proved |
| C31 | - | corollaries | proved |
| C33 | SIMD helpers per build, also those no kernel calls (PropHelpers.v) | lane lemmas; equality of programs; IEEE instance | proved |
| C34,C35 | rounded arithmetic under every build, tables included (`Round*.v`) | per butterfly: error at most g times the sum of its inputs' moduli; per pass: Cauchy-Schwarz gives a relative bound in the Euclidean norm; passes compose because exact passes multiply norms by sqrt(r); cost charged to prime factors | proved |
| C36 | the 32-byte accesses of each call as pairs of cells (`Vec.v`; `ModelVec.v`, generated with the kernels and made of the same lanes; `ModelVecApi.v`, following the recursions of the programs) | index arithmetic: even strides after the first pass, even twiddle offsets; odd strides occur only when the remaining length is odd, where the scalar code runs; RealFFT's work area y+N/2 is odd only if N/2 is odd, where again the scalar code runs; the listed accesses are accesses of the call: in every execution one thread makes both halves (`Performs.v`, `Via.v`, theorems `C36_*_accesses_made`) | proved |
| C37,C38 | as C34, the RFFT programs (`RoundReal.v`) | forward: the split map G of the half-length transform multiplies norms by sqrt 2 (pairs k, h-k), its rounding error is bounded by 3 of those norms; inverse: the merged vector has norm ‖X‖/sqrt 2 by Plancherel; the cost 60/15 of the factor 2 covers both |
| C39,C40 | as C37, the DCT programs (`RoundDct.v`) | the spectrum the DCT reads off the half-sample table has norm at most sqrt 2 times and at least once that of the coefficients; the post-rotation is a real part of a unit-modulus multiple, so it does not amplify |
| C41 | `sqrt_aux`, `mysqrt` on Flocq's IEEE doubles (`Mysqrt.v`) | the domain is the 25 powers of two the library instantiates: values by kernel computation, then real-number bounds on sqrt 2 and Flocq's rounding lemmas |
| C42,C43 | as C34, the Bluestein programs (`RoundBluestein.v`) | three transforms of length L chained with C34's lemma; the chirp's spectrum is bounded pointwise by its norm sqrt(L(2N-1)); pointwise products and the final rotation by an `approx` calculus |
| C44 | `ModelComplexType.v`: every function of `complex_t`, over any arithmetic | over the reals: ring/field identities, sqrt and trigonometry; existence of an atan2 constructed from atan |
| C45 | `ModelComplexType.v`: compound assignments on a memory of doubles, arguments by address | case analysis on addresses, any arithmetic |
| C46 | `Concurrent.v`: n application threads, each a configuration (running OpenMP team, loops left in the region, actions left), interleaved at single loads, stores and allocations; `PropConcurrent.v`: threads as sequences of API calls | non-interference: every reachable state projects, on the locations a thread uses, to a state of that thread alone; `WritesIn.v` shows syntactically which blocks each call stores to; termination by a product of well-founded orders |
| C47 | same semantics | every algorithm that `select` can choose stores to the work area either first or after one loop that only writes the caller's array (case analysis over kernels and recursions); thread 0 is run up to that store, then thread 1 in the resulting memory. For N = 2, 3, 4, 5, 8 no store leaves the caller's array, and the general theorem on concurrent calls applies. BluesteinFFT and RealDCT: both threads stop at their first store to a work area; a forward and an inverse DCT race between the first store of one and the last loop of the other |
| C48 | same semantics | instance of C46, the real transform stores only into its arguments |
| C49 | the arithmetic `ieee` (`Ieee64.v`): Flocq binary64 with infinities, NaNs, signed zeros, FMA, the literal constants; cos and sin any functions satisfying the record `libm` | simulation `ieee_sim` into the rounded reals ("if finite, then equal") for every operation, lifted to the transforms by parametricity of the model in its arithmetic (`Param.v`, `ParamKern.v`, `ParamFft.v`), then C34/C37/C39/C42 |
| C50 | same | "if finite, then equal" holds for every value put in the place of a non-finite element; letting it go to infinity contradicts the error bound |
| C51 | the four literals as binary64 numbers | rational bounds on pi (Machin series of the standard library), sqrt 2, cos(pi/8), sin(pi/8) and Flocq's rounding |
| C52 | the same arithmetic; `Grade.v`: an abstract arithmetic of exponents (d, g), standing for the bound 2^(d e + g) | simulation `grade_sim` (rounding is monotone and powers of two are representable, so no addition or product overflows below 2^1023), the cost of each butterfly computed by the kernel in the abstract arithmetic, induction over the passes (`GradeFft.v`) |
| C53 | as C49 and C52 | the simulations of C49 and C52 composed over two calls, and the round-trip bounds C35, C38, C40, C43 |
| C54 | setups and constructors over all ints (`ModelLength.v`), on the memory model of C27 | equality with the C27 model on natural lengths; the C27 invariant extended to negative ones |
| C55 | byte counts of requests (`ModelLength.v: bytes`), size_t of 64 or 32 bits | a bound on the elements of every block a setup obtains, by induction over the commands; the wrap-around for 2^28 |
| C56 | two forward calls, a client that stores the product of the spectra, one inverse call (complex and real objects) | the DFT of a circular convolution is the product of the DFTs (cyclic reindexing of sums), C01/C04 for each call, zero padding |
| C57 | the complex methods | DFT shift, conjugation and double-application identities composed with the call theorem |
| C58 | as C56, on rounded reals and on binary64 | norm-wise error propagation through two transforms, a rounded product and an inverse; simulation for binary64 (C49), grades for overflow (C52), nearest integer; for RealFFT the computed half of the spectrum is mirrored (the rounding need not be symmetric), the inverse reads nothing else |
| C59 | the complex and real forward methods; exact and on binary64 | orthogonality of the roots of unity; accuracy theorem C49 per element and the triangle inequality |
| C60 | the inverse methods of the real transform on any spectrum, of which only the first N/2+1 elements are initialised (`rfft_inv_ok` asks for no more) | the loop-independence proof of C18 with the weaker premise; both bins enter through one element of the half-length transform, an algebraic identity folds their imaginary parts |
| C61 | all transform objects, exact; ComplexFFT on binary64 | inner product of two DFTs by exchanging sums and DFT inversion; one-sided sums by Hermitian symmetry; DCT by its own inverse; C49 and the triangle inequality |
| C62 | all transform objects on binary64, two calls | the two runs as one run on pairs (Odd.v: `pair_ops`, whose projections are the runs); an arithmetic of four tags (equal and zero / equal / opposite / unknown) abstracts the pairs soundly (`tag_sim`, from rounding to nearest being odd); every kernel evaluated on tags never gets 'unknown' from equal tables and opposite data (OddFft.v) |
| C63 | `batch`: the calls on consecutive blocks, in sequence (PropBatch.v) | induction over the blocks from the single-call theorem with its frame; the two-dimensional DFT by exchanging the sums; its accuracy in the Frobenius norm (PropBatchAccuracy.v) from C49, C52 and the norm of the exact column transform; the round trip (PropBatchBack.v) and the energy (C61, PropBatchEnergy.v) from the pass lemma |
| C64 | sequences of calls with the client's product of spectra in between (PropCorrelation.v) | correlation theorem for `DFT` (`DFT_corr`), then as C56; the delay from the identity 2 Re corr = energies - squared distance; in floating point (PropCorrAccuracy.v) as the convolution (C58) with the reversed conjugate |
| C65 | two calls on objects of lengths N and r*N (PropResample.v) | the DFT identities by splitting the sums and orthogonality of the roots of unity, then the single-call theorem |
| C66 | two calls in two instances of the IEEE arithmetic (PropStability.v) | C49 for both, linearity and the norm of the exact transform, triangle inequality |
| C67 | calls of different classes on related data (PropPacking.v) | linearity and conjugate symmetry of the exact transforms; addition theorems for the mirrored roots |
| C68 | `modq`, `mylog2` (ModelModq.v), the int product checked | shifts and masks as division and remainder, the four quarter turns as roots of unity (PropModq.v) |
| C69 | `rbatch`: consecutive RealFFT calls; `dft2`, `rcirc2` as the specification (PropImage.v) | induction over the rows from the single-call theorem with its frame; two-dimensional symmetry, inversion and convolution from the one-dimensional ones; accuracy (PropImageAccuracy.v) as in C63 |
| C70 | `dbatch`: consecutive RealDCT calls; `dct2d` written with the cosines (PropDct2.v) | as C69, from C19 and C20 |
| C71 | `overlap_save`, `real_overlap_save`: a loop of client passes, two calls each (PropStream.v, PropStreamReal.v, PropStreamIeee.v) | induction over the passes with the frame and the history of every call; the last elements of the circular convolution with a padded kernel are elements of the linear one; integers on doubles from C58 for every block |

## 4. Findings (behaviour of the code that contradicts what a user would expect)

1. `createComplexFFT(1)` (and a RealFFT or RealDCT of the documented even length 2) calls through a null pointer on the first transform: `FFT0::setup` maps n=1 to no object (`otfft_algo.cpp` 45-143). C06.
2. A length with a prime factor above 46340 makes `p*p`-style int products overflow; RealDCT/Bluestein overflow at their own bounds. C11.
3. The factory executes XGETBV when CPUID.1:ECX has AVX set but not OSXSAVE - undefined instruction on such a configuration (`otfft.cpp` 83-141). C26_no_osxsave_illegal_instruction.
4. After a failed (throwing) `setup` the object keeps raw pointers to released memory; calling a transform then accesses freed memory. C32.
5. `BluesteinFFT::setup(n<1)` is silently ignored. C24_bluestein_setup_0_ignored.
6. The MSVC AVX2 build uses FMA intrinsics without checking the FMA feature bit, and its results differ from the other builds in the last bits. C33_fma_differs.
7. `simd_malloc` is an inline function whose alignment depends on the including translation unit's flags: a user compiled without AVX gets 16-byte aligned arrays from `simd_array`, but the AVX back end uses aligned 32-byte loads. (See C36 for what is proved about alignment.)
8. `mysqrt(2^n)` for odd n is one unit in the last place below the correctly rounded square root (an earlier version of this model took it to be correctly rounded); the factor `1.0/mysqrt(N)` is nevertheless the correctly rounded 1/sqrt(N). C41.
9. `complex_t::operator*=(const double&)` and `/=` take the factor by reference and update `Re` first: `z /= z.Re` yields `(1, Im)` (`otfft_complex.h` 100-112). C45_own_real_part.
10. `proj` (`otfft_complex.h`) is not `std::proj`: it returns 2z/(|z|^2+1). C44_proj.
11. `simd_array`, a public type, has the implicit copy constructor: a copy and its original both release the block. C27_array_copy_released_twice. (The transform classes hold a unique_ptr and cannot be copied.)
12. Without `__SSE2__`, `simd_malloc` is `malloc` while `simd_free` is `_mm_free` (`otfft_complex.h` 238-256). Not modelled: the allocator's functions are one pair in the model.
13. The transform methods of ComplexFFT look read-only on the object (`const` in `otfft_base.h`) but use its work area: two threads sharing one object race. C47. The same holds for RealDCT and BluesteinFFT. (A RealFFT object can be shared: C48.)
14. The literals H1X and H1Y (src/otfft_misc.h:42-43) have 36 digits of which only the first 17 are right; the doubles they denote are nevertheless the nearest ones. C51.
15. A negative length is converted to a huge `size_t` and refused by the allocator (std::bad_alloc) only because `int` is narrower than `size_t`; RealFFT accepts -1 silently, Bluestein ignores lengths below 1. Length INT_MAX overflows `n+1`. C54.
16. On 32-bit builds (CMakeLists.txt:94-97) `n*sizeof(T)` wraps: ComplexFFT(2^28) asks for a 16-byte twiddle table and writes 2^28+1 elements to it. C55.
17. RealFFT's inverse methods do not ignore the imaginary parts of bins 0 and N/2 of a spectrum: that of bin 0 is subtracted from bin N/2 and vice versa, so a spectrum (i, 0, ..., 0) gives the alternating signal. C60_imaginary_mean.

## 5. Seeded bugs

`seeded/LOG.jsonl`: one line per edited model.  `theorems_failed` lists the first lemma that breaks and then the property theorems that no longer build because of it.
