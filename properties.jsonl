{"id": "C01", "title": "Complex forward transform is the DFT", "statement": "After setup(N), the unscaled complex forward transform of a buffer x of N complex numbers replaces x[k] by sum_{j<N} x[j]*exp(-2*pi*i*j*k/N) for every k<N (real-number semantics of the arithmetic), and the caller-visible memory outside x and the work area is unchanged.", "quantifier": "every length N >= 2 that the library accepts (power of two, smooth, with arbitrary odd prime factors), every input vector, every initial work-area content (N from 2 to 2^30 with all prime factors <= 46340; the other lengths are undefined behaviour, see C06 and C11)", "why_tests_cant": "There are infinitely many lengths and a continuum of inputs; each length takes a different path through the radix 8/4/2/5/3/generic code and the 25-way power-of-two dispatch, so sampled lengths say nothing about the others.", "anchors": ["src/otfft_algo.cpp: FFT0::setup, FFT0::fwd0", "src/otfft_mixedradix.h: fwdfft, fwdfftany", "src/otfft_avxdif4.h", "src/otfft_avxdit4.h", "src/otfft_avxdif8.h", "src/otfft_avxdit8.h", "src/otfft_avxdif16.h", "src/otfft_sixstepsq.h", "src/otfft_eightstep.h"]}
{"id": "C02", "title": "Complex inverse transform is the conjugate DFT", "statement": "After setup(N), the unscaled inverse transform (inv and inv0) replaces x[k] by sum_{j<N} x[j]*exp(+2*pi*i*j*k/N) for every k<N.", "quantifier": "every accepted N >= 2, every input vector, every work-area content (N from 2 to 2^30 with all prime factors <= 46340; the other lengths are undefined behaviour, see C06 and C11)", "why_tests_cant": "The inverse kernels are a second hand-written copy of every butterfly with signs and table indices changed; a sign or index slip shows only for particular radices, strides and positions.", "anchors": ["src/otfft_mixedradix.h: invfft, invfftany, invcore*", "src/otfft_algo.cpp: FFT0::inv, inv0"]}
{"id": "C03", "title": "Scaling variants", "statement": "fwd and fwdn give the unscaled forward result times 1/N, fwdu times 1/sqrt(N); inv and inv0 give the unscaled inverse result, invu times 1/sqrt(N), invn times 1/N.", "quantifier": "every accepted N, every input (N from 2 to 2^30 with all prime factors <= 46340; the other lengths are undefined behaviour, see C06 and C11)", "why_tests_cant": "Scaling is folded into different stages (last butterfly, first butterfly, six-step twiddles, a final loop) in different kernels; a forgotten or double scaling affects only some lengths and modes.", "anchors": ["inc/otfft.h: ComplexFFT", "src/otfft_algo_mixed.cpp", "src/otfft_misc.h: scalepz, scalepz2, scaleez4", "src/otfft_algo_sixstep.cpp"]}
{"id": "C04", "title": "Round trips", "statement": "inv after fwd, invn after fwd0, invu after fwdu (and the same in the opposite order) restore the original vector exactly in real arithmetic.", "quantifier": "every accepted N, every input vector (N from 2 to 2^30 with all prime factors <= 46340; the other lengths are undefined behaviour, see C06 and C11)", "why_tests_cant": "A round trip on samples cannot exclude a pair of lengths/inputs where the two independently written directions disagree.", "anchors": ["inc/otfft.h: ComplexFFT", "src/otfft_algo.cpp: FFT0"]}
{"id": "C05", "title": "Energy preservation of the unitary variant", "statement": "fwdu and invu preserve sum |x[k]|^2 (Parseval/Plancherel).", "quantifier": "every accepted N, every input vector (N from 2 to 2^30 with all prime factors <= 46340; the other lengths are undefined behaviour, see C06 and C11)", "why_tests_cant": "Quantifies over a continuum of vectors and all lengths.", "anchors": ["inc/otfft.h: ComplexFFT::fwdu, invu"]}
{"id": "C06", "title": "Which transforms handle length one", "statement": "RealFFT of length 1 copies x[0], RealDCT and BluesteinFFT of length 1 leave x[0] unchanged; but a ComplexFFT of length 1 calls through a null pointer (undefined behaviour, whatever the state), and so do RealFFT and RealDCT of the documented even length 2, which delegate to it. (The natural claim 'length-one transforms are the identity' is therefore false of the code; the exact boundary is what is proved.)", "quantifier": "the boundary length N = 1 (and everything that delegates to a length-1 transform: real FFT and DCT of length 2, which is a documented valid even length)", "why_tests_cant": "A boundary case in the dispatch table reached only through a particular combination of object types and lengths; a null-pointer call is undefined behaviour so a test may even pass.", "anchors": ["src/otfft_algo.cpp: FFT0::setup case 0, FFT0::fwd, RFFT::setup"]}
{"id": "C07", "title": "Memory safety of the complex transforms", "statement": "setup(N) followed by any complex transform touches only the N elements of x, the N elements of the work area and the object's own tables inside their allocated sizes; it never reads an element that has not been initialised.", "quantifier": "every accepted N, every transform variant, every iteration of every loop", "why_tests_cant": "An out-of-bounds or uninitialised access is undefined behaviour and usually silent; index arithmetic depends on N, stride and radix, so absence must be shown for all of them.", "anchors": ["src/otfft_mixedradix.h", "src/otfft_avxdif*.h", "src/otfft_avxdit*.h", "src/otfft_misc.h: init_W, init_Wt, init_Wr1", "src/otfft_algo_*.cpp: setup, setup2"]}
{"id": "C08", "title": "Result independent of the work area", "statement": "The result of a complex transform depends only on the input vector and N, never on the previous contents of the work buffer or of the memory returned by the allocator.", "quantifier": "every accepted N, every input, every previous content of the work buffer", "why_tests_cant": "Requires comparing runs over all possible garbage contents.", "anchors": ["src/otfft_algo.cpp: struct FFT (work)", "src/otfft_mixedradix.h: eo parameter"]}
{"id": "C09", "title": "Thread schedules cannot change a result", "statement": "For every parallel loop of the library, every assignment of iterations to threads and every interleaving of their individual loads and stores ends in the same memory as executing the iterations one after the other - for any arithmetic, so in particular bit for bit in IEEE doubles.", "quantifier": "every number of threads, every schedule and interleaving, every N, every input, any scalar arithmetic", "why_tests_cant": "The number of interleavings is astronomically large and the scheduler is not controllable from a test.", "anchors": ["src/otfft_mixedradix.h: fwdcore*p, fwdend*p, fwdfftanyp", "src/otfft_avx*omp.h", "src/otfft_algo.cpp: omp parallel for", "src/otfft_algo_mixed.cpp"]}
{"id": "C10", "title": "No data races", "statement": "In no reachable state of a parallel region do two threads have conflicting next accesses (same element, at least one a store); every nowait construct is the last one before the end of the region, so no barrier is missing.", "quantifier": "every reachable state of every interleaving of every parallel region, every N", "why_tests_cant": "A data race is undefined behaviour and may never be observed in practice; sanitizers only see the schedules that happened.", "anchors": ["src/otfft_mixedradix.h (nowait, single)", "src/otfft_avx*omp.h (nowait, single)", "src/otfft_sixstepsq.h", "src/otfft_eightstep.h", "src/otfft_algo.cpp"]}
{"id": "C11", "title": "Signed overflow: exactly the lengths with a prime factor above 46340", "statement": "For every length 2..2^30 a ComplexFFT transform has defined behaviour (no int overflow in any checked product) if and only if every prime factor of the length is at most 46340; otherwise every execution reaches an overflowing product and none completes. RealFFT/RealDCT inherit this through N/2, RealDCT::setup overflows for N >= 2^30, BluesteinFFT::setup only beyond 2^29. (The documented claim 'any even length up to 2^30' is false of the code.)", "quantifier": "every N up to 2^30, every method, input, schedule", "why_tests_cant": "Overflow needs lengths with very large prime factors and lots of memory; signed overflow is undefined so tests prove nothing.", "anchors": ["src/otfft_mixedradix.h: fwdfftany, invfftany (i*j) % k", "src/otfft_algo.cpp: Bluestein (p*p) % N2"]}
{"id": "C12", "title": "The factor search terminates with a usable factor", "statement": "For every length 2..2^30 the mixed-radix driver terminates without overflow; each pass splits off a factor >1 that divides the remaining length (8, 4, 2, 5, 3 while they divide it, then the smallest remaining divisor, a prime >= 7), and the factors multiply to the length. The four variants (forward/inverse, single/multi-threaded) use the same passes.", "quantifier": "every N from 2 to 2^30", "why_tests_cant": "Termination over all N is not a finite check.", "anchors": ["src/otfft_mixedradix.h: fwdfft, fwdfftany"]}
{"id": "C13", "title": "Every power-of-two kernel computes the same transform", "statement": "Each of the power-of-two algorithms (radix 4, 8 and 16, decimation in frequency or in time, single- and multi-threaded code) computes the DFT, respectively inverse DFT, with the requested scaling for every power of two it is used for, so which of them the dispatcher picks is unobservable in exact arithmetic.", "quantifier": "every power of two 2^1..2^24 (and every stage/stride inside), every input, both directions and three scalings", "why_tests_cant": "The code for each size is a separate template instantiation with hand-unrolled butterflies; the single- and multi-threaded paths use different twiddle tables.", "anchors": ["src/otfft_avxdif4.h", "src/otfft_avxdit4.h", "src/otfft_avxdif8.h", "src/otfft_avxdit8.h", "src/otfft_avxdif16.h", "src/otfft_avxdit16.h", "src/otfft_avx*omp.h", "src/otfft_algo_dif4.cpp (and siblings)"]}
{"id": "C14", "title": "Six-step and eight-step transforms are the DFT", "statement": "The large power-of-two transforms that split N into n x n (or 8 x n x n) with blocked transposes compute the same DFT/inverse DFT with the same scalings.", "quantifier": "every even/odd exponent they are used for, every input", "why_tests_cant": "Needs lengths from 2^16 up; block index tables are triangular and computed, an error touches single elements.", "anchors": ["src/otfft_sixstepsq.h", "src/otfft_eightstep.h", "src/otfft_algo_sixstep.cpp: init_Wnxn"]}
{"id": "C15", "title": "Dispatch is total and transparent", "statement": "For every length n >= 2 setup selects an algorithm that can handle exactly that length (a power-of-two kernel only for powers of two within its table, mixed radix otherwise), so transforms are never silently skipped.", "quantifier": "every n >= 2", "why_tests_cant": "25 table entries times an unbounded default; the radix kernels silently return for exponents outside 0..24.", "anchors": ["src/otfft_algo.cpp: FFT0::setup", "src/otfft_algo_dif4.cpp (switch log_N) and siblings"]}
{"id": "C16", "title": "Real forward transform is the DFT of the real input", "statement": "After setup(N) with N even, the real forward transform writes y[k] = sum_j x[j] exp(-2 pi i jk/N) for all N bins (times 1/N for fwd, 1/sqrt(N) for fwdu, 1 for fwd0), and leaves the input array x unchanged.", "quantifier": "every even N >= 4 accepted by the underlying complex transform, every real input, every previous content of y", "why_tests_cant": "The packing into a half-length complex transform, the in-place use of the upper half of y as transform buffer and the symmetric extension interact differently for every N mod 4.", "anchors": ["src/otfft_algo.cpp: RFFT::setup, RFFT::fwd, fwd0, fwdu"]}
{"id": "C17", "title": "Real spectra are Hermitian", "statement": "The output of the real forward transform satisfies y[N-k] = conj(y[k]) for 0<k<N and y[0], y[N/2] are real.", "quantifier": "every even N >= 4, every real input", "why_tests_cant": "Universal over inputs; only a consequence of the algorithm, not of the types.", "anchors": ["src/otfft_algo.cpp: RFFT::fwd0"]}
{"id": "C18", "title": "Real inverse transform inverts the forward transform", "statement": "Applying the real inverse with the matching scaling to the spectrum of a real vector returns that vector (inv after fwd, invn after fwd0, invu after fwdu); on any Hermitian spectrum it computes the inverse DFT.", "quantifier": "every even N >= 4, every real vector / Hermitian spectrum", "why_tests_cant": "Forward and inverse use different packings and weight tables; equality must hold for all vectors.", "anchors": ["src/otfft_algo.cpp: RFFT::inv, inv0, invu, invn"]}
{"id": "C19", "title": "DCT forward is the DCT-II", "statement": "After setup(N), fwd0 of the DCT replaces x[k] by sum_{j<N} x[j] cos(pi k (2j+1) / (2N)) and fwd/fwdn by that divided by N, in place.", "quantifier": "every even N >= 4, every real input", "why_tests_cant": "Even/odd reordering, a real FFT and a rotation have to line up at every index for every N.", "anchors": ["src/otfft_algo.cpp: DCT0::setup, fwd, fwd0"]}
{"id": "C20", "title": "DCT inverse inverts the DCT", "statement": "inv after fwd and invn after fwd0 restore the input of the DCT.", "quantifier": "every even N >= 4, every real input", "why_tests_cant": "Universal over inputs and lengths.", "anchors": ["src/otfft_algo.cpp: DCT0::inv, inv0, invn"]}
{"id": "C21", "title": "Bluestein transform is the DFT for any length", "statement": "After setup(N) the Bluestein forward transform computes the DFT of length N (scaled as for the complex transform), for any natural N including primes; N=1 is the identity.", "quantifier": "every N >= 1 up to 2^28, every complex input", "why_tests_cant": "The algorithm is a chain of chirp multiplication, padding, circular convolution and chirp; wrap-around errors appear only for particular N and positions.", "anchors": ["src/otfft_algo.cpp: Bluestein::setup, fwd, fwd0, fwdu, fwdn"]}
{"id": "C22", "title": "Bluestein inverse and round trip", "statement": "The Bluestein inverse variants compute the inverse DFT with their documented scalings and undo the forward transform.", "quantifier": "every N >= 1, every complex input", "why_tests_cant": "Universal over inputs and lengths.", "anchors": ["src/otfft_algo.cpp: Bluestein::inv, inv0, invu, invn"]}
{"id": "C23", "title": "Bluestein padding never wraps", "statement": "The internal convolution length is a power of two L >= 2N-1, found after finitely many doublings, all indices computed from p*p reduced modulo 2N stay inside the chirp table, and no intermediate product overflows for the documented N <= 2^28.", "quantifier": "every N with 1 <= N <= 2^28", "why_tests_cant": "Aliasing of the circular convolution or overflow of p*p depends on N and is data dependent.", "anchors": ["src/otfft_algo.cpp: Bluestein::setup, Bluestein::fwd0"]}
{"id": "C24", "title": "Re-setup forgets the past", "statement": "What a transform object computes depends only on its most recent setup call (and the argument), not on earlier setups, earlier transforms, or stale tables: an object set up for n1, used, and set up again for n2 behaves like a fresh object of length n2.", "quantifier": "every finite sequence of setup and transform calls", "why_tests_cant": "Histories are unbounded.", "anchors": ["src/otfft_algo.cpp: FFT0::setup, RFFT::setup, DCT0::setup, Bluestein::setup", "inc/otfft_complex.h: simd_array::setup"]}
{"id": "C25", "title": "Transforms do not modify the object", "statement": "fwd*/inv* leave the configured object (length, algorithm, twiddle tables) unchanged, so repeating a call with the same input gives the same result and forward/inverse calls can be mixed in any order.", "quantifier": "every sequence of transform calls on a configured object", "why_tests_cant": "Histories are unbounded; tables are plain memory next to the work areas.", "anchors": ["src/otfft_algo.cpp: const methods", "src/otfft_algo_mixed.cpp"]}
{"id": "C26", "title": "Factory picks a supported instruction set or throws", "statement": "create* returns an object of the requested kind and length whose instruction set is compiled in, supported by CPU and operating system and allowed by the requested type, and the best such one in the order AVX2, AVX, SSE2; it throws exactly when no such implementation exists; and destroying what it returned never throws. This holds where the operating system has enabled XGETBV; elsewhere detection executes XGETBV unconditionally and dies with an illegal instruction, even if SSE2 was requested.", "quantifier": "every CPUID/XCR0 value, every compile-time subset of variants, every requested type, all four create functions", "why_tests_cant": "A test machine has one CPU; the decision table ranges over all feature combinations.", "anchors": ["src/otfft.cpp: Factory::createComplexFFT, createRealFFT, createRealDCT, createBluesteinFFT, isExecutable/sysinfo"]}
{"id": "C27", "title": "Table memory is owned exactly once, also when allocation fails", "statement": "Across any sequence of construction, setups (each of which may fail to get memory at any point and throw), method calls on a configured object and the final destruction, every block obtained from the allocator is released exactly once, no released block is accessed, the live blocks are exactly those the object's arrays hold and no two arrays hold the same one; a constructor that throws leaks nothing.", "quantifier": "every sequence of operations, every pattern of allocation failures, all four classes and a single array", "why_tests_cant": "Leaks and double frees depend on histories with failing allocations.", "anchors": ["inc/otfft_complex.h: simd_array", "src/otfft_algo.cpp: FFT0, FFT, RFFT, DCT0, DCT, Bluestein (constructors, setup, destructors)", "src/otfft_algo_sixstep.cpp: setup2"]}
{"id": "C28", "title": "Twiddle and weight tables hold the exact roots", "statement": "After setup(N) every table entry that a transform can read equals the root of unity (or real-FFT / DCT / chirp weight) required at that index, whichever of the serial, parallel and symmetry-exploiting initialisers filled it, and every such entry has been written.", "quantifier": "every N, every table index", "why_tests_cant": "Tables have up to 2N+1 entries for every N and are filled from both ends using symmetries that depend on N mod 8.", "anchors": ["src/otfft_misc.h: init_W, init_Wr1, init_Wt", "src/otfft_algo_mixed.cpp: setup", "src/otfft_algo.cpp: RFFT::setup, DCT0::setup, Bluestein::setup"]}
{"id": "C29", "title": "Linearity", "statement": "Every transform is linear: T(a x + b y) = a T(x) + b T(y) for the complex transforms (complex a, b), and for the real transform and DCT (real a, b).", "quantifier": "all vectors, all scalars, all accepted lengths", "why_tests_cant": "Continuum of inputs.", "anchors": ["inc/otfft.h"]}
{"id": "C30", "title": "Single- and multi-threaded code agree", "statement": "Crossing the size threshold at which the library switches to its multi-threaded code does not change what is computed: for each algorithm the multi-threaded version computes the same function as the single-threaded one (mixed radix: same operations on the same operands, so identical even in floating point).", "quantifier": "every N, every input, every schedule; any arithmetic for the mixed-radix code", "why_tests_cant": "The two versions are separate hand-written copies with flattened loop indices.", "anchors": ["src/otfft_mixedradix.h: fwdcore*p vs fwdcore*", "src/otfft_avx*omp.h", "src/otfft_algo_mixed.cpp: OMP_THRESHOLD"]}
{"id": "C31", "title": "All transform objects of equal length agree", "statement": "For any N both support, ComplexFFT and BluesteinFFT give the same forward and inverse results; RealFFT on a real vector equals ComplexFFT on the same vector embedded in the complex numbers.", "quantifier": "all lengths, all inputs", "why_tests_cant": "Universal over inputs and lengths; relates independently written algorithms.", "anchors": ["inc/otfft.h", "src/otfft_algo.cpp: FFT0, RFFT, Bluestein"]}
{"id": "C32", "title": "A failed setup can be recovered from, but its object must not be used", "statement": "If setup throws because memory is exhausted, the object can still be destroyed or set up again, and a later successful setup makes it work as new; but calling a transform method between the failed setup and the next successful one accesses released memory.", "quantifier": "every history before the failure, every failing allocation, every later length", "why_tests_cant": "Needs an allocator failing at every possible point of every history.", "anchors": ["src/otfft_algo.cpp: FFT0::setup (catch), FFT::setup, RFFT::setup, DCT::setup, Bluestein::setup"]}
{"id": "C33", "title": "The result does not depend on the instruction set the library was built for", "statement": "The SSE2, SSE3, AVX and AVX+FMA builds and the build without intrinsics compute, in exact arithmetic, the same results for every object, method, length and input; on IEEE doubles (round to nearest) the builds without FMA give bit-for-bit identical results. Every SIMD helper acts on each complex number of a vector exactly as the corresponding scalar operation.", "quantifier": "every build, every arithmetic (lane structure), every object, length, input and history", "why_tests_cant": "A test run exercises one build on one CPU; the claim relates all builds on all inputs.", "anchors": ["src/otfft_misc.h:225-1160,1455-1580", "CMakeLists.txt:183-300", "inc/otfft_complex.h:42-66"]}
{"id": "C34", "title": "Rounding errors stay small: relative accuracy of the complex transform", "statement": "In floating point (no overflow; underflow is gradual) every ComplexFFT method returns, for every length, input, build and schedule, a vector whose distance from the exact result is, in the Euclidean norm, at most a factor (1+u)^a(1+t)^b - 1 of the norm of the exact result, where u is the rounding unit, t the error of a twiddle table entry, and a and b are sums over the prime factors of N (60 and 15 per factor 2): the error grows only with log N for powers of two. Underflow adds at most the same factor times a floor of 2N times the smallest normal number.", "quantifier": "every rounding function, libm error, build, length, method, input, history and schedule", "why_tests_cant": "Tests compare against a reference with a tolerance for a few inputs; the bound is for all inputs, lengths and rounding behaviours.", "anchors": ["inc/otfft.h: ComplexFFT", "src/otfft_misc.h", "src/otfft_mixedradix.h", "src/otfft_dif*.h, otfft_dit*.h, otfft_sixstep.h, otfft_eightstep.h", "src/otfft_algo_mixed.cpp: setup (twiddle table)"]}
{"id": "C35", "title": "A floating-point round trip returns the input up to a bounded relative error", "statement": "Calling a method and then the method that undoes it returns, in floating point without overflow (underflow is gradual), the original vector up to a relative error (1+e)^2 - 1 in the Euclidean norm, e being the bound of C34. Underflow adds at most the same factor times sqrt N times the floor of C34.", "quantifier": "every pair of mutually inverse methods, every rounding function, build, length, input, history and schedule", "why_tests_cant": "Universal over inputs, lengths and rounding behaviours.", "anchors": ["inc/otfft.h: ComplexFFT fwd*/inv*", "src/otfft_algo.cpp: FFT0, FFT"]}
{"id": "C36", "title": "The AVX builds never make a misaligned 32-byte access", "statement": "In the AVX builds every two-complex-number load and store of a ComplexFFT, RealFFT, RealDCT or Bluestein call addresses a multiple of 32 bytes (anything else faults), provided the object's own arrays come from simd_malloc and the caller's complex array (for RealFFT: the complex side) is 32-byte aligned; the real arrays, the DCT's and Bluestein's arrays need not be. 16-byte alignment of the complex array is not enough.", "quantifier": "every length, method, position of the arrays in the address space", "why_tests_cant": "Whether an access is misaligned depends on length, pass, loop index and on where the allocator puts the arrays; tests see a few lengths and the addresses they happen to get.", "anchors": ["inc/otfft_complex.h: simd_malloc, simd_array", "src/otfft_misc.h: getpz2, setpz2, getez4, setez4", "src/otfft_avxdif4.h", "src/otfft_avxdif8.h", "src/otfft_avxdif16.h", "src/otfft_avxdit4.h", "src/otfft_avxdit8.h", "src/otfft_avxdit16.h", "src/otfft_sixstepsq.h", "src/otfft_eightstep.h", "src/otfft_mixedradix.h", "src/otfft_algo.cpp: RFFT::fwd (z = y + Nh)"]}
{"id": "C37", "title": "RealFFT is accurate in floating point", "statement": "In floating-point arithmetic without overflow (underflow is gradual) every forward method of RealFFT returns the exact (scaled) DFT of the real input up to the relative error of C34 in the Euclidean norm, and the returned spectrum is exactly Hermitian; every inverse method applied to a Hermitian spectrum returns real data within the same bound of the exact result. Underflow adds at most the same factor times the floor of C34.", "quantifier": "every rounding function with relative error u, every build, even length, method, input, history and schedule", "why_tests_cant": "Universal over inputs, lengths and rounding behaviours.", "anchors": ["src/otfft_algo.cpp: RFFT::setup, RFFT::fwd*, RFFT::inv*", "inc/otfft.h: RealFFT"]}
{"id": "C38", "title": "A floating-point RealFFT round trip returns the input up to a bounded relative error", "statement": "Calling a forward method of RealFFT and then the inverse method that undoes it returns, in floating point without overflow (underflow is gradual), the original real vector up to a relative error (1+e)^2 - 1 in the Euclidean norm, e being the bound of C34. Underflow adds at most the same factor times sqrt N times the floor of C34.", "quantifier": "every pair of a forward and its inverse method, every rounding function, build, length, input, history and schedule", "why_tests_cant": "Universal over inputs, lengths and rounding behaviours.", "anchors": ["inc/otfft.h: RealFFT fwd*/inv*", "src/otfft_algo.cpp: RFFT"]}
{"id": "C39", "title": "RealDCT is accurate in floating point", "statement": "In floating-point arithmetic without overflow (underflow is gradual) every method of RealDCT returns the exact (scaled) cosine transform of the real input up to a relative error in the Euclidean norm: the error bound e of C34 for the inverse methods, sqrt 2 times e for the forward methods. Underflow adds at most the same factor times the floor of C34.", "quantifier": "every rounding function with relative error u, every build, even length, method, input, history and schedule", "why_tests_cant": "Universal over inputs, lengths and rounding behaviours.", "anchors": ["src/otfft_algo.cpp: DCT0, DCT", "inc/otfft.h: RealDCT"]}
{"id": "C40", "title": "A floating-point RealDCT round trip returns the input up to a bounded relative error", "statement": "Calling a method of RealDCT and then a method that undoes it, in either order, returns in floating point without overflow (underflow is gradual) the original real vector up to a relative error sqrt 2 ((1+e)^2 - 1) in the Euclidean norm, e being the bound of C34. Underflow adds at most the same factor times sqrt N times the floor of C34.", "quantifier": "every pair of methods undoing each other, every rounding function, build, length, input, history and schedule", "why_tests_cant": "Universal over inputs, lengths and rounding behaviours.", "anchors": ["inc/otfft.h: RealDCT fwd*/inv*", "src/otfft_algo.cpp: DCT0, DCT"]}
{"id": "C41", "title": "The unitary scaling factor of power-of-two lengths is correctly rounded", "statement": "The compile-time square root used by the unitary methods of power-of-two lengths terminates for every supported length, and the factor by which fwdu and invu multiply the data is, in IEEE double precision, exactly the double nearest to 1/sqrt(N). (The square root itself is exact for powers of four and has relative error at most 3/2 * 2^-53 otherwise; for odd powers of two it is not the nearest double.)", "quantifier": "every supported power-of-two length 2^n, every build", "why_tests_cant": "It is a statement about a constant-expression recursion for every supported length; a test sees only the lengths it instantiates and cannot tell a correctly rounded factor from a nearby one.", "anchors": ["src/otfft_misc.h: sqrt_aux, mysqrt, scalepz"]}
{"id": "C42", "title": "BluesteinFFT is accurate in floating point for every length", "statement": "In floating-point arithmetic without overflow (underflow is gradual), every method of BluesteinFFT returns the exact (scaled) transform up to a relative error in the Euclidean norm of at most sqrt(2L) ((1+u)^(21+180 l) (1+t)^(3+45 l) - 1), where L = 2^l is the least power of two not below 2N-1, u the unit roundoff and t the error of a table entry; e.g. at most 2e-10 for the prime length 1009 in double precision. Underflow adds at most the same factor times a floor of 8L times the smallest normal number.", "quantifier": "every rounding function with relative error u, every build, length 1..2^29 (prime or not), method, input, history and schedule", "why_tests_cant": "Universal over inputs, lengths and rounding behaviours.", "anchors": ["src/otfft_algo.cpp: Bluestein", "inc/otfft.h: ComplexFFT"]}
{"id": "C43", "title": "A floating-point BluesteinFFT round trip returns the input up to a bounded relative error", "statement": "Calling a method of BluesteinFFT and then a method that undoes it, in either order, returns in floating point without overflow (underflow is gradual) the original vector up to a relative error (1+e)^2 - 1 in the Euclidean norm, e being the bound of C42. Underflow adds at most the same factor times sqrt N times the floor of C42.", "quantifier": "every pair of methods undoing each other, every rounding function, build, length, input, history and schedule", "why_tests_cant": "Universal over inputs, lengths and rounding behaviours.", "anchors": ["src/otfft_algo.cpp: Bluestein", "inc/otfft.h: ComplexFFT"]}
{"id": "C44", "title": "complex_t is the field of complex numbers", "statement": "In exact arithmetic the constructors and operators of complex_t form the field of complex numbers: the commutative ring laws, the reals embedded by complex_t(x), i*i = -1, complex_t(x,y) = x + i y, and division by any nonzero number is the inverse of multiplication. conj is a field automorphism, norm and abs are multiplicative with abs(z)^2 = norm(z) = z conj(z), jx/mjx/neg multiply by i/-i/-1, polar(abs z, arg z) = z and abs, arg recover rho, theta from polar(rho, theta), expj(s+t) = expj(s) expj(t) with modulus 1. proj, unlike std::proj, maps the plane into the unit disc (2z/(|z|^2+1)): it is the identity only on 0 and the unit circle.", "quantifier": "all complex numbers (all nonzero divisors, all angles)", "why_tests_cant": "Algebraic laws over a continuum; a test checks single values.", "anchors": ["inc/otfft_complex.h: complex_t, norm, conj, abs, arg, proj, polar, jx, neg, mjx, operators, expj"]}
{"id": "C45", "title": "Compound assignment of complex_t is right whatever its argument refers to, except the object's own real part", "statement": "a += b, a -= b, a *= b leave in a exactly the result of the binary operator on the former values and change nothing else, also if a and b are the same object; a *= x and a /= x do so for every double x, also if x is a's own imaginary part; but if x is a reference to a's own real part the imaginary part is scaled by the already updated real part (z /= z.Re gives 1 + i Im z).", "quantifier": "any arithmetic (also IEEE), every memory content, every pair of objects and every double, aliased or not", "why_tests_cant": "Universal over values and aliasing configurations.", "anchors": ["inc/otfft_complex.h: complex_t::operator+=, -=, *=, /="]}
{"id": "C46", "title": "Threads of the application may use different objects at the same time", "statement": "If several threads of the application call setup and transform methods of ComplexFFT, RealFFT, RealDCT and BluesteinFFT concurrently, each thread any sequence of calls whose preconditions it would meet alone, and no call of one thread may write memory (object or argument) that a call of another thread uses, then under every interleaving: no undefined behaviour, no data race between or inside the calls, no deadlock, no infinite execution, and every thread finds in its objects and arrays exactly what it would have found had it run alone; all other memory is unchanged.", "quantifier": "every number of application threads, every sequence of calls per thread, every interleaving of their loads, stores and allocations, every OpenMP team size and schedule inside each call, every arithmetic", "why_tests_cant": "A statement about all interleavings of unboundedly many threads; a test samples a few.", "anchors": ["inc/otfft.h: ComplexFFT, RealFFT, RealDCT", "src/otfft_algo.cpp: FFT0, FFT, RFFT, DCT0, DCT, Bluestein", "src/otfft_base.h"]}
{"id": "C47", "title": "When one transform object can and cannot be used by several threads at once", "statement": "Two threads calling transform methods of the same ComplexFFT object at the same time, each on its own array, have a data race on the object's work area: for every admissible length except 2, 3, 4, 5 and 8, and every pair of methods, there is an interleaving that reaches one. For the lengths 2, 3, 4, 5 and 8 (whose transforms work in place) any number of threads may share the object: every interleaving is free of races and undefined behaviour, completes, and leaves in each array what the call would leave alone. One BluesteinFFT object of length at least 2, or one RealDCT object of any admissible length, cannot be shared: any two method calls (also one forward and one inverse) can reach a data race on its work areas.", "quantifier": "every admissible length, choice of methods, disjoint arrays, memory and history of the object; for the five small lengths also every number of threads and every interleaving", "why_tests_cant": "A race need not show in a test run.", "anchors": ["src/otfft_base.h: FFT::work", "src/otfft_algo.cpp: FFT::fwd .. FFT::invn", "src/otfft_algo.cpp: DCT::fwd .. DCT::invn, Bluestein::fwd .. Bluestein::invn"]}
{"id": "C48", "title": "One RealFFT object may be used by several threads at once", "statement": "Several threads may call methods of the same RealFFT object at the same time, each on its own input and output arrays: under every interleaving there is no undefined behaviour and no data race, each thread gets the result it would get alone, and no memory of the object is changed. With the forward methods the threads may moreover share the input array.", "quantifier": "every number of threads, every method per thread, every admissible length, data, history and interleaving", "why_tests_cant": "A statement about all interleavings of unboundedly many threads.", "anchors": ["src/otfft_base.h: RFFT", "src/otfft_algo.cpp: RFFT::fwd .. RFFT::invn"]}
{"id": "C49", "title": "On IEEE doubles, every finite output is accurate", "statement": "On IEEE-754 binary64 numbers (with infinities, NaNs, signed zeros, gradual underflow, fused multiply-add where the build uses it), for any C library whose cos and sin have absolute error at most lam, every output element of ComplexFFT, RealFFT, RealDCT and Bluestein that is finite lies within the stated bound of the exact transform of the input, and if all outputs are finite the whole result does in the Euclidean norm.", "quantifier": "every build, method, admissible length, input, object history, schedule and cos/sin implementation", "why_tests_cant": "The claim ranges over all inputs of 2^128 values per element and all libms.", "anchors": ["src/otfft_algo.cpp: FFT::fwd .. FFT::invn, RFFT, DCT, Bluestein", "src/otfft_misc.h: mulpz, fmaddsub, H1X, H1Y"]}
{"id": "C50", "title": "Infinities and NaNs in the input are never swallowed", "statement": "If any input element of ComplexFFT, of a forward method of RealFFT or of Bluestein is infinite or NaN, then every output bin has an infinite or NaN part; for RealDCT and the inverse methods of RealFFT (on the spectrum of real data) at least one output is infinite or NaN. (For lengths for which the error bound of C49 times sqrt N, respectively the error bound, is below 1.)", "quantifier": "every build, method, such length, input with such an element at any position, object history, schedule and cos/sin implementation", "why_tests_cant": "Every position, combination of special values and instruction set has its own propagation path.", "anchors": ["src/otfft_algo.cpp: FFT, RFFT, DCT, Bluestein"]}
{"id": "C51", "title": "The literal constants are the nearest doubles", "statement": "M_PI, M_SQRT1_2, H1X and H1Y as compiled are the binary64 numbers nearest to pi, 1/sqrt 2, cos(pi/8) and -sin(pi/8), although the decimal literals of H1X and H1Y are wrong from the 18th digit on.", "quantifier": "the four constants; an irrational number against all doubles", "why_tests_cant": "A comparison with an irrational number cannot be computed in doubles.", "anchors": ["src/otfft_misc.h: M_PI, M_SQRT1_2, H1X, H1Y"]}
{"id": "C52", "title": "No overflow below a stated magnitude", "statement": "If all inputs are finite and at most 2^e in magnitude and e + 10 log2 N <= 1023 (RealDCT: e + 10 log2 N + 2; Bluestein with convolution length 2^l: e + 6 + 30 l), then no intermediate or final value overflows: every output is finite, of magnitude at most 2 to that exponent, and within the error bound of C49 of the exact transform. In particular ComplexFFT cannot overflow on inputs up to 2^723, whatever the length.", "quantifier": "every build, method, length, finite input of that magnitude, object history, schedule, and cos/sin implementation with absolute error at most 1", "why_tests_cant": "The largest intermediate value depends on the input, the length and the butterfly; no set of inputs covers them.", "anchors": ["src/otfft_algo.cpp: FFT, RFFT, DCT, Bluestein", "src/otfft_misc.h"]}
{"id": "C53", "title": "Round trips on IEEE doubles return the input", "statement": "A method followed by the method that undoes it (with anything in between that leaves the array and the object alone) returns, on binary64 numbers, finite values within the round-trip error bound of the original data, for inputs of magnitude at most 2^e with e + 20 log2 N <= 1023 (RealDCT: + 4); for Bluestein every finite result is within the bound.", "quantifier": "every build, pair of methods, length, input of that magnitude, object history, schedule and cos/sin implementation", "why_tests_cant": "The error depends on all the data and on the build; the property is about all of them.", "anchors": ["src/otfft_algo.cpp: FFT, RFFT, DCT, Bluestein"]}
{"id": "C54", "title": "Any int may be passed as a length: negative lengths are refused or ignored without harm", "statement": "Passing a negative length to setup or to a constructor is safe in every state of the object: ComplexFFT and RealDCT throw std::bad_alloc, RealFFT throws too except for length -1, for which its methods do nothing, and Bluestein's setup ignores lengths below 1. No block is leaked, released twice or accessed after release whatever ints are used as lengths, and the object can be set up again or destroyed. The one length that overflows int arithmetic for complex transforms is the largest int.", "quantifier": "every int length, every history of setups and calls with arbitrary ints, every pattern of allocation failures, all four classes", "why_tests_cant": "Ranges over all ints, histories and failure patterns; a negative length turns into a huge unsigned size.", "anchors": ["inc/otfft_complex.h: simd_array::simd_array(int), simd_array::setup", "src/otfft_algo.cpp: FFT0::setup, FFT::setup, RFFT::setup, DCT0::setup, DCT::setup, Bluestein::setup", "src/otfft_algo_mixed.cpp: FFT0::setup"]}
{"id": "C55", "title": "The allocator is asked for as many bytes as the tables need", "statement": "Whatever length is passed to setup or a constructor, the byte count passed to the allocator for each table is the number of its elements times their size: the size computation never wraps around when size_t has 64 bits. When it has 32 bits (the library supports such builds) this holds for lengths below 2^27 (Bluestein: 2^25), while setup for length 2^28 asks for 16 bytes for a table of 2^28+1 elements.", "quantifier": "every int length, every class, every state of the object, every pattern of allocation failures", "why_tests_cant": "Lengths of that size are not tested, and the wrap-around depends on the product of length and element size for each of a dozen tables.", "anchors": ["inc/otfft_complex.h: simd_array::simd_array(int), simd_array::setup", "src/otfft_algo.cpp: setup functions", "CMakeLists.txt: CMAKE_SIZEOF_VOID_P"]}
{"id": "C56", "title": "Convolution and polynomial multiplication through the transforms", "statement": "Transforming two arrays forward with one object, multiplying the results element by element and transforming back (fwd0, fwd0, invn or any of the other combinations whose scalings cancel) leaves the circular convolution of the two inputs; if the inputs are zero-padded to a length at least the sum of their lengths minus one, it is the product of the polynomials. With RealFFT the same sequence gives the convolution of two real arrays.", "quantifier": "every admissible length, all data, every object history, number of threads and interleaving, anything the client does between the calls", "why_tests_cant": "Ranges over all pairs of inputs and all lengths.", "anchors": ["src/otfft_algo.cpp: FFT::fwd0, FFT::fwdu, FFT::fwdn, FFT::inv0, FFT::invu, FFT::invn, RFFT::fwd0, RFFT::invn", "inc/otfft.h: ComplexFFT, RealFFT"]}
{"id": "C57", "title": "Symmetries of the complex transforms", "statement": "Shifting the input cyclically by s multiplies coefficient i of the result by exp(-2 pi i s i/N) (exp(+...) for the inverse methods); a forward method on the conjugated input gives the conjugate of what the inverse method with the same scaling gives; two transforms in the same direction whose scalings cancel reverse the array, keeping index 0. Multiplying the input by exp(+2 pi i s n/N) (forward; minus for the inverse methods) moves the spectrum up by s places; reversing the input (index 0 fixed) reverses the result; real input gives a Hermitian result and Hermitian input a real one.", "quantifier": "every admissible length, all data, shifts, methods, object histories, schedules", "why_tests_cant": "Ranges over all inputs, shifts and lengths.", "anchors": ["src/otfft_algo.cpp: FFT::fwd .. FFT::invn", "inc/otfft.h: ComplexFFT"]}
{"id": "C58", "title": "Accuracy of convolutions; exact convolution of integers", "statement": "Computing a circular convolution with fwd0, fwd0, an element-wise product and invn in floating-point arithmetic gives a result within (((1+u)(1+e))^3 - 1) sqrt(N) |X| |Y| (plus an underflow term) of the exact convolution in the Euclidean norm, where e is the accuracy of one transform. On IEEE doubles inputs of magnitude at most 2^e1 and 2^e2 with e1 + e2 + 30 log2 N + 1 <= 1023 do not overflow. If the bound is below 1/2 and the data are integers, rounding the result gives the exact integer convolution (for example 1024 integers of up to 10 bits). The same holds for RealFFT, where only the first N/2 + 1 products need to be computed and stored before the inverse.", "quantifier": "every build of the library and of the client's product, admissible length, data, object history, schedule, cos/sin implementation", "why_tests_cant": "A worst-case error bound over all inputs; tests sample a few.", "anchors": ["src/otfft_algo.cpp: FFT::fwd0, FFT::invn, RFFT::fwd0, RFFT::invn", "src/otfft_misc.h: mulpz2", "inc/otfft_complex.h: operator*"]}
{"id": "C59", "title": "Impulses, tones and peak detection", "statement": "A forward or inverse transform of an impulse at position s with value z gives z exp(-+2 pi i s k/N) times the scale factor; of a complex tone of frequency f it gives a single non-zero coefficient at f (z itself for fwd); RealFFT of A cos(2 pi f n/N + phi), 0 < f < N/2, gives (A/2) exp(i phi) at f, its conjugate at N-f and zero elsewhere (for fwd). On IEEE doubles, if the error of the samples plus the error bound of the transform is below a quarter of sqrt(N) A, the largest element of the first half of the computed spectrum is at f and only there.", "quantifier": "every admissible length, frequency, phase, amplitude, position, object history, schedule, build, sample error below the bound", "why_tests_cant": "The unit tests check five sine waves; the property covers every frequency, length and rounding error.", "anchors": ["unit_tests/otfft_find_peak_test.cpp: findPeak", "src/otfft_algo.cpp: RFFT::fwd, FFT::fwd", "inc/otfft.h: RealFFT, ComplexFFT"]}
{"id": "C60", "title": "The inverse real transform of an arbitrary spectrum", "statement": "RealFFT's inverse methods read elements 0..N/2 of the spectrum only: the second half of the array may hold anything, or be uninitialised, without effect on the result or on definedness. The result is the inverse transform of the Hermitian continuation of the first half, except that the imaginary parts of elements 0 and N/2 are not ignored: that of element N/2 is subtracted from element 0 and that of element 0 from element N/2.", "quantifier": "every admissible even length, inverse method, spectrum (not only Hermitian ones), object history, schedule; first part any arithmetic", "why_tests_cant": "The tests only invert spectra produced by a forward transform.", "anchors": ["src/otfft_algo.cpp: RFFT::inv, RFFT::invu, RFFT::invn", "inc/otfft.h: RealFFT"]}
{"id": "C61", "title": "Energy and inner products under every scaling", "statement": "The sum of the squared magnitudes of a complex transform's result is that of its input times N (fwd0, inv, inv0), times 1/N (fwd, fwdn, invn) or unchanged (fwdu, invu), and inner products of two vectors change by the same factor; the same energy law holds for BluesteinFFT. For RealFFT the signal energy follows from the one-sided spectrum: |Y0|^2 + |Y(N/2)|^2 + 2 sum over 0<i<N/2 of |Yi|^2; for RealDCT from S0^2 + 2 sum of Sk^2. On IEEE doubles the norm of a finite result differs from the exact one by at most the error bound of one transform. The energy of a two-dimensional spectrum (rows, transposition, columns) is that of the array times both factors.", "quantifier": "every admissible length, method, input, object history, schedule; the last part every build and cos/sin implementation", "why_tests_cant": "An identity over all inputs and lengths, and a worst-case error bound.", "anchors": ["inc/otfft.h: ComplexFFT, RealFFT, RealDCT", "src/otfft_algo.cpp: FFT, RFFT, DCT, Bluestein"]}
{"id": "C62", "title": "Negation and silence are exact in floating point", "statement": "On IEEE doubles, in every build and whatever the C library's cos and sin return: if two calls of the same method get inputs of which one is minus the other, each number of one result is exactly minus that of the other (no rounding difference; zeros may differ in sign), or neither is finite. The calls may use different objects, histories and addresses. In particular inputs that are all zeros (of either sign) give finite results that are all zeros. The same for RealFFT (both directions), RealDCT and BluesteinFFT.", "quantifier": "every admissible length, method, pair of opposite inputs (finite or not), build, cos/sin implementation, object histories, schedules", "why_tests_cant": "It speaks of the rounding of every intermediate result for every pair of inputs, including overflowing ones, in every build.", "anchors": ["inc/otfft.h: ComplexFFT, RealFFT, RealDCT", "src/otfft_algo.cpp: FFT0, RFFT, DCT, Bluestein", "src/otfft_misc.h: mulpz, mulpz2, v8xpz, w8xpz"]}
{"id": "C63", "title": "Batches and two-dimensional transforms", "statement": "One object applied to consecutive blocks of a longer array (obj.k(x), obj.k(x+N), ..., obj.k(x+(R-1)N)) transforms every block as a single call on it would, changes nothing outside the blocks (except the object's own buffers) and leaves the object usable. Transforming the P rows of an array with an object of length N, storing the transposed array, and transforming its N rows with an object of length P (the same object, if the array is square and the client wishes) gives the two-dimensional DFT of the array, scaled by the product of the two factors. On IEEE doubles the same procedure overflows nowhere if the inputs leave room for the growth, and if its results are finite it deviates from the exact two-dimensional DFT, in Frobenius norm, by at most the combination (1+e)(1+e')-1 of the two one-dimensional error bounds, plus an underflow term. Columns and rows with the matching method give the array back.", "quantifier": "every method, all admissible lengths, every number of blocks, all data, histories of both objects, number of threads and interleaving, anything the client does between the batches; for the error bound every build, every libm accurate to lam, and all factorisations", "why_tests_cant": "Ranges over all lengths, numbers of rows, data and histories.", "anchors": ["inc/otfft.h: ComplexFFT", "src/otfft_algo.cpp: FFT::fwd0, FFT::fwdu, FFT::fwdn, FFT::inv0, FFT::invu, FFT::invn"]}
{"id": "C64", "title": "Correlation and delay", "statement": "Transforming two arrays forward, multiplying the conjugate of the first spectrum with the second and transforming back (scalings that cancel) leaves their circular cross-correlation; storing the squared magnitudes of one spectrum and transforming back leaves the autocorrelation. If one array is the other delayed by s places, the result at s is the energy of the array, its real part is nowhere larger, and it is as large at another lag only where the array repeats itself. With RealFFT the same for real arrays. On IEEE doubles the correlation computed with ComplexFFT overflows nowhere if the inputs leave room, its error is bounded like that of a convolution, and for integers whose bound is below 1/2 (1024 signed integers of 10 bits each, for instance) rounding the result to integers gives the exact correlation.", "quantifier": "every admissible length, all data, every delay, every object history, number of threads and interleaving, anything the client does between the calls", "why_tests_cant": "Ranges over all pairs of inputs, delays and lengths.", "anchors": ["inc/otfft.h: ComplexFFT", "src/otfft_algo.cpp: FFT::fwd0, FFT::fwdu, FFT::fwdn, FFT::inv0, FFT::invu, FFT::invn", "inc/otfft.h: RealFFT", "src/otfft_algo.cpp: RFFT::fwd0, RFFT::invn"]}
{"id": "C65", "title": "Objects of different lengths agree", "statement": "For the unscaled methods: padding an array of N elements with zeros to r*N elements gives a transform whose every r-th coefficient is the coefficient of the unpadded array; repeating it r times gives r times its coefficients at the multiples of r and zero elsewhere; keeping only every r-th element of a longer array adds up the coefficients N apart (aliasing), divided by r.", "quantifier": "every N and r with N and r*N admissible, all data, both objects' histories, number of threads and interleaving", "why_tests_cant": "Relates all pairs of lengths, which run different code (radix passes, six-step, eight-step, mixed radix), on all data.", "anchors": ["inc/otfft.h: ComplexFFT", "src/otfft_algo.cpp: FFT::setup, FFT::fwd0, FFT::inv, FFT::inv0"]}
{"id": "C66", "title": "Stability and agreement in floating point", "statement": "Two calls of the same method on IEEE doubles, with nearly equal inputs, possibly in different builds of the library, with different C libraries, objects and histories: if the outputs are finite they differ, in the Euclidean norm, by at most the gain of the transform (sqrt N unscaled, 1 unitary, 1/sqrt N scaled) times the difference of the inputs plus the two error bounds of C49. In particular results of different machines agree up to rounding, and so do ComplexFFT and BluesteinFFT, and ComplexFFT and RealFFT, on the same data.", "quantifier": "every admissible length, method, pair of inputs, pair of builds, pair of cos/sin implementations of bounded error, histories, schedules", "why_tests_cant": "It compares machines and C libraries that no single test run has, on all inputs.", "anchors": ["inc/otfft.h: ComplexFFT, RealFFT", "src/otfft_algo.cpp: FFT, RFFT, Bluestein", "src/otfft_misc.h"]}
{"id": "C67", "title": "One transform through another: two real arrays in one complex transform, the DCT by mirroring", "statement": "Transforming an array with v in the real and w in the imaginary parts with ComplexFFT gives Z such that the spectra a RealFFT object computes of v and w are (Z_i + conj Z_(N-i))/2 and (Z_i - conj Z_(N-i))/2i (index N-0 read as 0). Transforming an array followed by its mirror image with a ComplexFFT object of twice the length gives, at i < N, 2 exp(j pi i/2N) times the i-th coefficient the RealDCT object computes.", "quantifier": "every forward method (the DCT: fwd0), every admissible length, all real data, all histories of the objects, schedules", "why_tests_cant": "Relates different classes, lengths and algorithms on all data.", "anchors": ["inc/otfft.h: ComplexFFT, RealFFT, RealDCT", "src/otfft_algo.cpp: FFT, RFFT, DCT"]}
{"id": "C68", "title": "Quarter-table lookup of twiddle factors", "statement": "The lookup helper of the library (given a stride, an index and a table of the first quarter of the roots of unity of a power-of-two length) returns the root for every product of stride and index that is an int, reads nothing but that quarter, and its integer logarithm is the integer part of the binary logarithm. (No transform of this version calls it; for lengths that are no powers of two it is wrong.)", "quantifier": "every power of two from 4, every stride and index, any table position", "why_tests_cant": "Ranges over all lengths, strides and indices.", "anchors": ["src/otfft_misc.h: mylog2, modq"]}
{"id": "C69", "title": "Images: rows with RealFFT, columns with ComplexFFT", "statement": "Transforming the P rows of a real image (P rows, N columns, stored row after row) with consecutive calls obj.fwd(x + r*N, y + r*N) of one RealFFT object of length N, storing the result transposed and transforming its N columns with one ComplexFFT object of length P gives the scaled two-dimensional DFT of the image, leaves the image itself unchanged after the rows, and the spectrum has the symmetry S(-r,-c) = conj S(r,c). From any spectrum with that symmetry, columns with ComplexFFT and then rows with RealFFT (inverse methods) give the real image that is its inverse two-dimensional DFT; with a matching pair of methods this recovers the image, and, if the client multiplied the spectrum element by element with the spectrum of a kernel, gives the image filtered cyclically with that kernel. Every row of a batch becomes, bit for bit, what a single RealFFT call makes of it. On IEEE doubles the computed spectrum overflows nowhere if the image leaves room for the growth, and if finite it deviates from the exact one, in Frobenius norm, by at most the combination of the two one-dimensional error bounds plus an underflow term.", "quantifier": "every forward method and every method that undoes it, all admissible N and P, all images, spectra and kernels, histories of both objects, number of threads and interleaving, anything the client does between the batches", "why_tests_cant": "Ranges over all sizes, images, kernels and histories.", "anchors": ["inc/otfft.h: RealFFT, ComplexFFT", "src/otfft_algo.cpp: RFFT::fwd*, RFFT::inv*, FFT0::fwd*, FFT0::inv*"]}
{"id": "C70", "title": "Batches and two-dimensional transforms with RealDCT", "statement": "One RealDCT object applied in place to consecutive blocks of a longer array transforms every block, bit for bit, as a single call on it would, and changes nothing outside the blocks except the object's own buffers. Rows, a transposition by the client, and columns (with a second object, or with the same one if the image is square) give the two-dimensional cosine transform of the image, every element a double sum of the image against products of cosines with the scaling of the method; columns and rows with the matching method give the image back.", "quantifier": "every method, every matching pair in both orders, all admissible N and P, all images, histories of both objects, number of threads and interleaving, anything the client does between the batches", "why_tests_cant": "Ranges over all sizes, images and histories.", "anchors": ["inc/otfft.h: RealDCT", "src/otfft_algo.cpp: DCT::fwd*, DCT::inv*, DCT0::fwd*, DCT0::inv*"]}
{"id": "C71", "title": "Block-wise filtering (overlap-save)", "statement": "A client that keeps the spectrum of a zero-padded kernel of M coefficients and goes through a signal in steps of N - M + 1, copying N elements of the signal to a work array, calling fwd0, multiplying with the spectrum, calling invn and appending the last N - M + 1 elements to the output, obtains the linear convolution of kernel and signal at every element of the output, however long the signal; nothing but the work array, the output and the object's own buffers changes. With M - 1 zeros in front of the signal this is the response of the causal filter. The same holds for real signals and kernels with RealFFT, the signal being transformed where it stands. On IEEE doubles, if kernel and signal are integers small enough for the block length, the output rounded to integers is exactly the linear convolution, however long the signal (errors do not accumulate from block to block).", "quantifier": "all admissible N, all 0 < M <= N, all kernels and signals, every number of passes, every history of the object, number of threads and interleaving inside each call (exact arithmetic; IEEE doubles for integer data)", "why_tests_cant": "Ranges over all signals, lengths of signals, kernels and histories; the seams between blocks are exactly where a sample test does not look.", "anchors": ["inc/otfft.h: ComplexFFT, RealFFT", "src/otfft_algo.cpp: FFT::fwd0, FFT::invn, FFT0::fwd0, FFT0::invn, RFFT::fwd0, RFFT::invn"]}
