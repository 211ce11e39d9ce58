# LibRapid in Rocq: design

The C++ sources in `/repo` are read as text and re-stated as small, total, computable Gallina
functions.  Properties (`properties.jsonl`, C01…) are theorems about those functions.

## Layout

For each part `X` of the library there are up to four files in `rocq/theories/`:

| file | content |
|---|---|
| `XModel.v` | the model: one definition per C++ function, each with a comment citing file and lines. No proofs. |
| `XSpec.v` (where needed) | the small independent specification the theorems refer to. |
| `XProofs.v` | lemmas. |
| `XProperties.v` | only `Theorem … Proof. exact lemma. Qed. Print Assumptions …` and the `Example`s showing that the hypotheses are satisfiable. |

`Base.v` holds the shared outcome type and loop combinators.

## Conventions of the model

* **Outcomes.** `Ok a | Throw e | UB`.  `UB` is undefined behaviour in C++ (out-of-bounds access,
  over-wide shift, null or dangling access, double free, signed overflow where relevant).
  Theorems that claim absence of UB say so explicitly (`= Ok …`).
* **Assertions.** `LIBRAPID_ASSERT` is compiled in or out; models that depend on it take a boolean
  `asserts`.  With `asserts = false` the check is skipped and execution continues.
* **Integers.** Unbounded `Z`/`N`/`nat` unless wrap-around matters; where it does the wrap is written
  (`mod 2^32`, `mod 2^64`).
* **Floating point.** Algorithms whose correctness does not depend on rounding are modelled over an
  arbitrary commutative ring, over `Q`, or over `R` (stated in each file); these theorems do not cover
  rounding error.  `half` is integer code in the library and is modelled bit by bit.  C75 rounds every
  operation (Flocq's `round`), C80 to C84 run sums, products, sequences, interpolation, random
  numbers and complex arithmetic on IEEE numbers (Flocq's `binary_float`, with infinities, one NaN, signed zeros, gradual underflow, ties to even).
  Both assume that the compiler keeps the operations as written: no `-ffast-math` (the option
  LIBRAPID_FAST_MATH is off by default, CMakeLists.txt l. 52 and 428-435) and no contraction into
  fused multiply-add.
* **Mutable memory.** A function that writes through a pointer returns the new memory.  Ownership
  (Storage, heap BitSet) is modelled with an explicit heap with allocation and free.
* **SIMD.** A packet of width `w` is a list of `w` lanes, loaded/stored at an offset.
* **Threads.** A `#pragma omp parallel for` is any interleaving of its iterations: theorems quantify
  over every permutation of the iteration list (iterations are atomic in the model; a separate
  disjointness argument shows why that suffices — no iteration reads what another writes).

## False properties

Where the code violates a property, the full statement is refuted by a witness
(`…_refuted : exists …`), and the strongest true part is proved under the exact extra condition
(`…_partial`).  `MANIFEST.json` then says `partial` and names both.

## Trusted base

* Coq 8.16.1 kernel (and `coqchk` run by the gate).
* Axioms: none for the discrete parts.  Files over `R` use the standard library's axiomatisation of
  the reals (`ClassicalDedekindReals.sig_forall_dec`, `ClassicalDedekindReals.sig_not_dec`,
  `FunctionalExtensionality.functional_extensionality_dep`) and, for some analysis lemmas,
  `Classical_Prop.classic`.  All four are declared by Coq's standard library.  What is printed for each
  theorem is in the section "Axioms per theorem" below.
* The reading of the C++ text by the author of the model: nothing here runs the C++ code.

## Plan per property

| id | modelled | how it is proved |
|---|---|---|
| C01 | word list + single-bit set/get, popCount, any, none | refinement to `nat -> bool`, induction over the history |
| C02 | three-loop range write | refutation witness; partial for `start%64=0` or different words |
| C03 | `<<=`, `>>=` on words, over-wide shift = UB | bit-level lemma per word; refutations for multiples of 64 and stray bits |
| C04 | `~`, `all`, `highMask` | partial for n not a multiple of 64; refutations |
| C05 | `first`, `last` loops | induction; refutation (UB) on empty `last` |
| C06 | `|= &= ^=` over min word count | pointwise; refutation for larger right operand |
| C07 | string constructor and `str` | round trip by induction on the position |
| C08–C10 | sorted-vector Set | StronglySorted invariant, In-equivalence; refutation for `^` |
| C11 | Stride constructor, Horner offset | induction on the shape; mixed-radix decode/encode bijection |
| C12 | `operator()`, `operator[]` chains | equality of both offsets; read-over-write |
| C13–C15 | Shape/MatrixShape/VectorShape, shapesMatch | case analysis; wrap-around witnesses |
| C16–C17 | views = (base, offset, shape, stride), copy constructor, iterators, odometer loop | refinement to multi-index functions; refutation for copied views |
| C18 | assign / assignParallel with packet width | every permutation of iterations gives the pointwise map; refutation for fixed parallel scalar loop |
| C19 | ArrayContainer::assign | state machine with asserts flag; refutations |
| C20 | functor table: name → function | over R: table equality for the correct entries, refutation for asinh/acosh/atanh/exp2/exp10 |
| C21–C23 | heap + Storage objects | invariant over histories of the safe subset; refutations for leaking move-assign and moved-from targets |
| C24 | heap BitSet ownership | double-free witness |
| C25 | nested lists (rose trees) → data, shape | induction on the nesting |
| C26 | arange/linspace/… index arithmetic with unsigned counter | Q; refutation for negative values |
| C27 | comma initialiser | induction on the values |
| C28–C29 | generic blocked loops, SIMD kernels as lane permutations, remainder loops, OpenCL tile kernel | every schedule; refutations for SIMD non-square/alpha/double kernel and for axes |
| C30–C32 | matmulClass, shapes, gemv/gemm_generic on flat memory | equality with Σ over an arbitrary commutative ring; refutations |
| C33 | GPU kernels as phase-structured per-thread programs | gemv proved; gemm refuted, partial |
| C34 | geam | elementwise |
| C35–C38 | half conversions and arithmetic, bit exact | finite sweeps with stated domain + symbolic proofs; refutations |
| C39–C41 | rounding helpers over Q/Z, pow10 table | arithmetic; refutations |
| C42–C43 | random/randint/reseed state machine with abstract generator | refutations + partial |
| C44–C45 | Dual over R, Sigmoid | derivative rules, induction over expressions |
| C46–C48 | Complex over R | field/trigonometric identities; refutations for assignment/aliasing |
| C49 | SIMD vector storage with padding lanes | refutation (padding), partial |
| C50 | serialise bytes ++ hash | round trip; short buffer = UB |
| C51–C52 | formatTime, Timer | Q; monotone clock |
| C53 | MT19937 incremental and batch steps | invariant over draws; refutation |
| C54 | Map wrappers over finite maps | refinement |
| C55 | strided level-1 loops | induction |
| C56 | formatter | inductive token stream |
| C57 | cxxblas gemm/gemv/gescal, sequential and parallel path, all orders and modes | entry-wise equation with the frame, over any commutative ring with involution |
| C58 | the fixed-size buffers that hold a format specification | refuted by the specification that is one character too long; proved for those that fit |
| C59 | OpenCLStorage and OpenCLRef over a reference-counted device memory | invariant: count of a buffer = number of variables that hold it |
| C60 | the same histories | invariant plus a value specification per command; two false cases refuted |
| C61–C62 | CudaStorage and CudaRef over a heap of padded blocks | ownership invariant, value specification of Storage; false cases refuted |
| C63 | launch geometry and elementwise kernels; threads step through single reads and writes | invariant over every interleaving |
| C64 | the recursive device evaluator with temporaries and packets | induction over the expression tree |
| C65 | the same outside those bounds | refuted by witnesses |
| C66 | str(mpf) on GMP's digit string and exponent | case analysis on the exponent; positional value over Q |
| C67 | device list, score, selection loop and prompt | induction over the device list |
| C68 | log over reals with explicit sign bits of zeros; the float evaluation of ln of the modulus with its constants | atan2 case analysis; mean value theorem; series for ln 2 |
| C69 | all pow overloads, cbrt, exp2, exp10 | reduction of each branch to exp(w log z) |
| C70 | acos, acosh, asinh, asin, atanh, atan and reciprocals with the rescaling branches | algebra of the two square roots; asinh(ab) = asinh b + ln a error bound; false for acosh of reals below -1 on types without signed zeros |
| C71 | fillRandom on the CPU and the fillRandom kernels with their MT19937 | invariant over all interleavings of reading the seed, loop rounds and storing the seed; bound of the generator's words; false in binary64 (upper bound) |
| C72 | the same, with the 1024 shared seeds, setSeed/reseed flag and the host loop | invariants per schedule class (small arrays, threads in turn, threads in lockstep); false for large arrays and after host calls |
| C73 | a store of named arrays; lazy expressions with views and transposes that re-read the store at every element; the assignment operators of arrays and views | loop invariants over any order; stability of the expression under the writes done so far; exact result of the in-place transpose; refutations for transpose and row of the destination |
| C74 | program objects in numbered slots that become dead at the end of their scope; operands by reference (lvalues) or by value (temporaries); building, copying, iterating, evaluating and assigning expressions; temporaries of a full expression | invariant over histories (references point to earlier live objects and stay within their shapes), induction on expressions for the denotation before and after any further history; witnesses for the false parts |
| C75 | EftModel.v: rounding to nearest even in a format of prec bits with gradual underflow (Flocq's round); addX2, addSmallX2, addX1, highHalf on the 64 bits, both versions of sqrError, the float instantiation, normMinusOne, logP1 and the central branches of logHypot with every operation rounded; the logarithm is any function with relative error 2^-52. No largest exponent: statements apply while nothing overflows. | addX2 from Flocq's TwoSum theorem; the others by exhibiting each intermediate result as an integer multiple of a power of two that fits the format, with carry of highHalf into the exponent followed on the bits; error bounds by linear arithmetic over the reals. False for float: the split uses the bits of the promoted double, so the error term is always zero (C75_float_square), and a result of wrong sign is exhibited (C75_float_norm_refuted). False without a lower bound on |x|: underflow (C75_sqrX2_underflow_refuted). |
| C76 | Memory as one list with addresses; every branch of trmv_generic, trmm_generic and gescal_init (TriModel.v); arbitrary commutative semiring. | Loop rule for in-place ascending and descending updates; each new element is a dot product over the part of the vector not yet overwritten; column-major calls by transposition; blocks line by line. |
| C77 | As C76, with subtraction and division of an arbitrary field; division by zero is excluded by the hypothesis on the diagonal. | Same loop rule; the new element settles its own row of the system; uniqueness of triangular solutions gives the round trip. |
| C78 | symv_generic, hemv_generic, symm_generic and hemm_generic with the calls of dotu, dot, axpy, acxpy, scal and gescal they make, over a flat memory with signed strides. | Sweep lemma: after i rows every y_k has received the terms of rows below i; the terms of a row (dot to the right, axpy down) are gathered by a region-and-gain invariant, and the sum over rows is folded into the mirrored matrix. |
| C79 | The generic texts of ger, gerc, syr, her, syr2, her2, syrk, syr2k, herk, her2k, syscal and hescal over a flat memory with signed strides. | Each row update is a gain on a region; rows are disjoint by the leading dimension, so the gains add up to the stated entry and nothing else changes; the rank-k forms by induction on k. |
| C80 | The existing models of dot, dotu, asum, gemm, gemv, the lazy product and Vector, run on Flocq's binary_float instead of a ring (AccModel.v); AccLinear.v redoes the linear algebra without ring laws, keeping the order of operations. | Jeannerod-Rump bound by induction on the shape of the summation, for any bracketing; finiteness and exactness by the same induction; padding lanes add exact zeros. |
| C81 | linspace and arange on Flocq's IEEE numbers (NumModel.v), operation by operation. | Monotonicity of rounding for the order and the interval, standard rounding-error bounds for accuracy, integrality for exactness; counterexamples by computation. |
| C82 | The functions on Flocq's IEEE numbers including infinities, NaN and signed zeros (NumModel.v). | lerp: the largest number below 1 keeps t * d below d after rounding; smoothStep: forward error analysis and the mean value theorem for the polynomial; isClose: monotone rounding. |
| C83 | random and randint on Flocq's IEEE numbers, the generated value being any number in [0, 1) (NumModel.v). | Monotone rounding; the gap below a number bounds how far w <= 1 - u shrinks the difference; witnesses by computation. |
| C84 | _mul and _div on Flocq's IEEE numbers with all their branches (NumModel.v). | Jeannerod-Rump bound and Cauchy-Schwarz for products; forward error analysis of Smith's method for quotients, both branches through one lemma. |
| C85 | The generic texts of the eight packed level-2 routines over a flat memory with signed strides; the kept cell of entry (i, j) is given by a closed formula in PackSpec, the code walks rows of shrinking or growing length. | The row starts are shown equal to the closed formula; a generic loop rule for triangular rows given by any injective cell map then gives products, solutions and updates; bijectivity of the cell map by quadratic arithmetic; round trip from uniqueness of triangular solutions. |
| C86 | The generic texts of the five banded level-2 routines over a flat memory with signed strides; only the cells of the band need lie inside the memory. | Same loop rules as C85, with the cell map of band storage; for gbmv a row rule whose start and length are the clipped band, and the sum over the clipped range equals the sum over the row because entries outside are zero. |
| C87 | round, roundTo, roundUpTo, roundSigFig and pow10 over Flocq IEEE numbers; std::floor, std::copysign and std::fmod as exact functions; the loops of roundSigFig with a bound on their rounds | exactness of the steps between the two scalings (Sterbenz, integers of the format), closeness up to factors (1-u)^n through the loops, exactness of fmod on mantissas |
| C88 | rfft over lists of reals; the external libraries by their documented contract | loop invariant for the wrapper; orthogonality of the cosines by a telescoping sum; C88_fftw_refuted: with FFTW the length is converted to int, so empty arrays and 2^31 or more numbers fail |
| C89 | the generic templates over any semiring, with one memory for values and lists for the index arrays | loop invariants: every stored term adds to one cell (or two for a half-stored matrix); the terms are exchanged with the sum over places; C89_unsorted_refuted: when the diagonal entry is not first (last) in its line, or is stored in two parts, the symmetric and Hermitian products count it twice |
| C90 | the generic templates of level1extensions for dense matrices and the vector routines under them, over a memory of cells; an access outside it is UB, a failed assert is Throw | one lemma for loops over lines that write distinct cells, from the specification of the vector routine to that of the matrix; rows and columns by symmetry |
| C91 | the generic templates over a memory of cells | as C90; packed triangles by the bijection between entries and cells of C85 |
| C92 | the generic templates over a memory of cells | as C90, with one line per diagonal |
| C93 | both conversions bit by bit (as for C35 and C36), float division as Flocq's IEEE 754 binary32 division on the bit patterns | double rounding theorem of Flocq for quotients (24 >= 2*11 bits), no quotient of two 11-bit numbers is a tie, nearest conversion from C36 |
| C94 | static_cast between float, double and integers as Flocq's IEEE 754 conversions on bit patterns; an out-of-range conversion to an integer is undefined | Flocq's rounding of binary_normalize, monotonicity of rounding for faithfulness, C35/C36 for the bit operations |
| C95 | the loops of TriModel with the IEEE operators of AccModel and NumModel (Flocq) | law-free recurrences for the elements written, then error analysis row by row; Oettli-Prager construction for the perturbation; strong induction along the order of solution for the integer case |
| C96 | the scaled sum of squares as a fold over a memory, over R and over Flocq IEEE numbers; std::pow(r,2) is a parameter with a two-unit error | invariant scale^2*ssq = sum of squares; over IEEE numbers the same invariant with a relative error of 8 roundings per element, bounds 1 <= ssq <= 1+4k, then the error of sqrt and product |
| C97 | rotg and rot over R and over complex pairs of R; rotg over IEEE double for the overflow | case analysis on the signs and moduli, field; rot by the pair-write lemma of BlasProofs, inverse by extensionality of the memory; counterexamples by computation |
| C98 | the generic gbmm, hbmm, sbmm and tbmm over the models of gbmv, hbmv, sbmv, tbmv and scal (BndModel) | each line of the result is one call of the band-matrix-by-vector product; an invariant over the lines with the frame of the other lines, over any commutative semiring |
| C99 | Sigmoid::forward and backward over IEEE numbers with any exponential function meeting a stated contract | order lemmas for rounded 1+e and 1/s, with the overflow of the sum as a case of its own; rounding errors; midpoints next to 1/4 and 1; the contract is met by the exact exponential rounded to nearest |
| C100 | mag2, mag and norm of VectorModel over IEEE numbers | errors of a sum of squares in any order (C80), absence of overflow by an invariant of every bracketing, square root and quotient errors |
| C101 | conversions between mpz/mpq/mpf/mpfr values through decimal texts, abs, copySign, signBit, ldexp | digit lists over Z, rounding to nearest and error bounds over Q; number types as contracts, shown to be inhabited |
| C102 | _fabs and sqrt of complex numbers over IEEE numbers, operation by operation | calculus of relative errors of positive terms, exact scaling, the constants of 1+sqrt 2 checked by integer squares; symmetry of the rounded operations under negation |
| C103 | loadKernel with its static map, std::fstream opening and the failbit of std::stringstream, over a file system that changes between loads | induction over the history with the cache as invariant; three refutations (relative flag not part of the key, unreported failures are cached without assertions, an empty prelude drops the rest) |
| C104 | getOpenCLErrorString and its table, with undefined behaviour for an index outside the table | case split at the bounds of the table, exhaustive comparison of its entries; refuted for the codes -13..-19 of OpenCL 1.1 and 1.2 |
| C105 | gemm, gemv and dot of MatmulModel over IEEE numbers, with their scale factors | error of a sum of products (C80) followed by the three roundings of the update; relative errors of products of factors; witness that folding the factors can overflow where scaling the elements does not |
| C106 | The operators of Complex used by the products (CacModel), with the dot of BlasModel and the lazy matrix products of MatmulModel over pairs of IEEE numbers. | Each part of the sum is a tree of additions of 2n rounded products, to which the any-order bound of C80 applies; induction for finiteness and exactness; multiplication by 1 + 0i and addition of 0 change no finite value. |
| C107 | logHypot<double> on the bits of its arguments with every branch: non-finite values, zero, the middle branch of C75, and the branch with ilogb, scalbn and the split ln 2 (LghModel). | Middle branch from C75; the far branch by rounding-error bounds with a verified value of ln 2; symmetry from the injectivity of the bit pattern of a non-negative double. |
| C108 | the dual operators and functions over an arbitrary scalar type and their instance with IEEE 754 arithmetic (Flocq); libm functions other than sqrt are arbitrary | structural induction: a calculus of pairs (exact bound, bound with roundings) closed under the operations; exactness of integers below 2^prec; explicit quotient error analysis; witnesses 2^600 and 2^-600 by computation |
| C109 | tanh and tan for float and double in IEEE arithmetic, operation by operation, with the real sinh and tan as parameters | relative-error calculus for the normal case, absolute errors for tiny real parts, and for large ones the exactness of sqrt(x*x) and of 1 + x, which makes numerator and denominator the same number |
| C110 | complex.hpp l.388-410, 1488-1546, 1780-1784, 1890-1894, 1989-2011 operation by operation over Flocq's IEEE numbers, library functions as parameters | one lemma for a product of two approximations with one rounding; case analysis on the special values; exactness of multiplication by one; bounds of ln 2 for the overflow witness |
| C111 | type names, usual arithmetic conversions, kernel names as strings, the program as the expansion of the kernel macros, argument binding by size, the failure paths (Knl) | lookup computed once per name by evaluation, then by cases over the operand types; uniqueness of the 696 names by evaluation |
| C112 | kernel lookup by file and name; the types of the template instantiation; packets; whether the instantiated kernel compiles; the run on arrays that know their element type | invariant over any permutation of the packets; induction over the expression; case analysis of types; witnesses for the counterexamples |
| C113 | trsm and trmm of TriModel with IEEE 754 operators (Flocq, round to nearest even, any precision and exponent range) | The line invariant of the exact proof is generic in what one call of trsv or trmv does to a line; it is used with the residual of C95. The scaling adds one rounding per entry; the residual for alpha B follows by summing these over the row. Column-major calls are the row-major ones for the transposes. |
| C114 | CblModel: the overloads as functions of the library's routines, which are parameters; memory of reals for the calls on parts of complex vectors | CblSpec states the contract of each library routine (the effect for each CBLAS_TRANSPOSE code, early return of level 1); the code reaching the library is shown to mean the requested operation, the redirection of Conj to the other storage order is shown to be the same matrix; the two real calls are composed |
| C115 | randomGaussian operation by operation in IEEE double, with the generator's outputs as a list and std::log as a parameter | a draw is zero or at least 2^-53, so s is at least 2^-106 and neither the quotient overflows nor the product underflows; relative errors step by step; induction over the draws and the calls |
| C116 | rotg and rot with IEEE operators (NrmModel.frotg, GrtModel.frot) | propagation of relative errors through the scaled root (each operation in range), algebra for the orthogonality and the annihilation, the generic two-vector loop lemma for rot |
| C117 | the routines of C55, C79 and C90 with IEEE operators (FadModel) | loop lemmas that need no algebraic laws (one for each routine, a new one for ger), then the rounding error of one element |
| C118 | gecrsmv and gecrsmm of CrsModel with the IEEE operators (FspModel) | a loop proof without algebraic laws gives each element as a left-to-right sum of rounded terms; an induction over the stored entries bounds its error; the exact value is the matrix product over the reals |

## Not modelled

Build system, bindings generators, CUDA/OpenCL runtime and driver behaviour, JIT, external BLAS libraries (only their contracts, C114),
the inside of the FFT libraries (pocketfft, FFTW, cuFFT; rfft is modelled over their contract, C88), the inside of GMP and MPFR (their contracts in C66, C101), fmt formatting of individual numbers, xsimd intrinsics
(their lane semantics is written into the model), IEEE rounding of `float`/`double` outside C75, C80-C84, C87, C93-C97, C99, C100, C102, C105-C110, C113 and C115-C118.

## Sources and their models

Which part (`XModel.v`) cites which source file; the comments give the lines.  A cited file is not
modelled line by line: what is left out is said in the comment at the definition.

| source | models |
|---|---|
| `cxxblas/level1/asum.tcc` | Acc, Blas, Cbl |
| `array/arrayContainer.hpp` | Alias, Assign, Construct, Cuk, Format, Lazy, Matmul, Transpose, View |
| `array/assignOps.hpp` | Alias, Assign, Cuk, Device, Knl |
| `array/function.hpp` | Alias, Assign, Cuk, Device, Knl, Lazy |
| `array/operations.hpp` | Alias, Cuk, Functor, Knl, Lazy |
| `array/linalg/arrayMultiply.hpp` | Alias, Cuk, Knl, Matmul |
| `array/linalg/transpose.hpp` | Alias, Knl, Transpose |
| `array/generalArrayView.hpp` | Alias, Lazy, View |
| `array/storage.hpp` | Assign, Construct, Fft, Storage |
| `datastructures/bitset.hpp` | BitSet, Storage |
| `cxxblas/level1/copy.tcc`, `cxxblas/level1/swap.tcc`, `cxxblas/level1extensions/asum1.tcc`, `cxxblas/level1extensions/imax1.tcc`, `cxxblas/tinylevel1/copy.tcc` | Blas |
| `cxxblas/level1/iamax.tcc` | Blas, Cbl |
| `cxxblas/level1/scal.tcc`, `cxxblas/tinylevel1/scal.tcc` | Blas, Cbl, Fad, Matmul |
| `cxxblas/level1/axpy.tcc`, `cxxblas/level1extensions/axpy.tcc`, `cxxblas/tinylevel1/axpy.tcc` | Blas, Cbl, Fad, Sym |
| `cxxblas/level1/dot.tcc`, `cxxblas/level1extensions/dot.tcc` | Blas, Cbl, Matmul, Tri |
| `cxxblas/level1/rot.tcc` | Blas, Grt, Nrm |
| `cxxblas/level3extensions/gbmm.tcc`, `cxxblas/level3extensions/hbmm.tcc`, `cxxblas/level3extensions/sbmm.tcc`, `cxxblas/level3extensions/tbmm.tcc` | Bnd |
| `math/complex.hpp` | Cac, Cex, Cfun, Complex, Csq, Cuk, Eft, Fft, Knl, Lgh, Num, Tnh |
| `cxxblas/drivers/drivers.tcc` | Cbl |
| `cxxblas/level1extensions/acxpy.tcc`, `cxxblas/tinylevel1/acxpy.tcc` | Cbl, Ext, Sym |
| `cxxblas/level2/gemv.tcc`, `cxxblas/level2extensions/gemv.tcc`, `cxxblas/level3/gemm.tcc`, `cxxblas/tinylevel2/gemv.tcc` | Cbl, Matmul |
| `cxxblas/level2/gbmv.tcc`, `cxxblas/level2/hpr2.tcc`, `cxxblas/level2extensions/gbmv.tcc` | Cbl, Pack |
| `cxxblas/level2/trmv.tcc`, `cxxblas/level2/trsv.tcc`, `cxxblas/level2extensions/trmv.tcc`, `cxxblas/level2extensions/trsv.tcc` | Cbl, Sol, Tri |
| `cxxblas/level3/trmm.tcc`, `cxxblas/level3/trsm.tcc` | Cbl, Tri, Trl |
| `math/coreMath.hpp` | Cex, Dual, Functor, Num, Rnd, Round, Tnh |
| `utils/memUtils.hpp` | Cfun, Csq, Lgh, Rnd |
| `array/arrayFromData.hpp`, `array/commaInitializer.hpp` | Construct |
| `array/fill.hpp` | Construct, Fill, Knl |
| `array/pseudoConstructors.hpp` | Construct, Num |
| `cxxblas/sparselevel2/heccsmv.tcc`, `cxxblas/sparselevel2/hecrsmv.tcc`, `cxxblas/sparselevel2/syccsmv.tcc`, `cxxblas/sparselevel2/sycrsmv.tcc`, `cxxblas/sparselevel3/heccsmm.tcc`, `cxxblas/sparselevel3/hecrsmm.tcc`, `cxxblas/sparselevel3/syccsmm.tcc`, `cxxblas/sparselevel3/sycrsmm.tcc` | Crs |
| `cxxblas/sparselevel2/gecrsmv.tcc`, `cxxblas/sparselevel3/gecrsmm.tcc` | Crs, Fsp |
| `cuda/cudaStorage.hpp` | Cuda |
| `core/cudaConfig.hpp` | Cuda, Cuk, Device |
| `cuda/kernels/vectorOps.cuh` | Cuk |
| `cuda/cudaKernelProcesor.hpp`, `cuda/kernels/arithmetic.cu` | Cuk, Device |
| `autodiff/dual.hpp` | Cuk, Dfl, Dual, Knl |
| `cuda/kernels/abs.cu`, `cuda/kernels/expLogPow.cu`, `cuda/kernels/floorCeilRound.cu`, `cuda/kernels/negate.cu`, `cuda/kernels/trigonometry.cu` | Cuk, Functor |
| `math/half.hpp` | Cuk, Half, Hdiv, Knl |
| `src/cudaKernelProcessor.cpp` | Cuk, Ker |
| `core/traits.hpp` | Cuk, Knl |
| `array/linalg/level2/gemv.hpp`, `array/linalg/level3/gemm.hpp` | Cuk, Knl, Matmul |
| `array/linalg/level3/gemm.cu` | Cuk, Matmul |
| `opencl/kernels/arithmetic.cl` | Device, Dual, Knl |
| `opencl/openclKernelProcessor.hpp` | Device, Knl |
| `cuda/kernels/activations.cu` | Dual |
| `opencl/kernels/activations.cl` | Dual, Knl |
| `ml/activations.hpp` | Dual, Knl, Sig |
| `cxxblas/level1extensions/acxpby.tcc`, `cxxblas/level1extensions/ccopy.tcc`, `cxxblas/level1extensions/gbaxpby.tcc`, `cxxblas/level1extensions/gbaxpy.tcc`, `cxxblas/level1extensions/gbcopy.tcc`, `cxxblas/level1extensions/gbcotr.tcc`, `cxxblas/level1extensions/gbscal.tcc`, `cxxblas/level1extensions/gecopy.tcc`, `cxxblas/level1extensions/gecotr.tcc`, `cxxblas/level1extensions/geswap.tcc`, `cxxblas/level1extensions/racxpy.tcc`, `cxxblas/level1extensions/tpaxpby.tcc`, `cxxblas/level1extensions/tpaxpy.tcc`, `cxxblas/level1extensions/tpcopy.tcc`, `cxxblas/level1extensions/tpscal.tcc`, `cxxblas/level1extensions/traxpby.tcc`, `cxxblas/level1extensions/traxpy.tcc`, `cxxblas/level1extensions/trcopy.tcc`, `cxxblas/level1extensions/trscal.tcc`, `cxxblas/tinylevel1/acxpby.tcc`, `cxxblas/tinylevel1/ccopy.tcc`, `cxxblas/tinylevel1/gecopy.tcc` | Ext |
| `cxxblas/level1extensions/axpby.tcc`, `cxxblas/level1extensions/geaxpby.tcc`, `cxxblas/level1extensions/geaxpy.tcc`, `cxxblas/level1extensions/geraxpy.tcc`, `cxxblas/level1extensions/gerscal.tcc`, `cxxblas/level1extensions/raxpy.tcc`, `cxxblas/level1extensions/rscal.tcc`, `cxxblas/tinylevel1/axpby.tcc`, `cxxblas/tinylevel1/geaxpy.tcc`, `cxxblas/tinylevel1/gerscal.tcc`, `cxxblas/tinylevel1/rscal.tcc` | Ext, Fad |
| `cxxblas/level2/ger.tcc` | Fad, Sym |
| `array/fourierTransform.hpp` | Fft |
| `opencl/kernels/fill.cl` | Fill, Knl, Random |
| `cuda/kernels/fill.cu` | Fill, Random |
| `array/arrayTypeDef.hpp`, `array/generalArrayViewToString.hpp` | Format |
| `simd/vecOps.hpp` | Functor |
| `opencl/kernels/abs.cl`, `opencl/kernels/expLogPow.cl`, `opencl/kernels/floorCeilRound.cl`, `opencl/kernels/negate.cl`, `opencl/kernels/trigonometry.cl` | Functor, Knl |
| `math/random.hpp` | Gau, Num, Random |
| `cxxblas/level1extensions/hescal.tcc`, `cxxblas/level3/hemm.tcc`, `cxxblas/level3/her2k.tcc`, `cxxblas/level3/herk.tcc` | Herm |
| `src/openclErrorIdentifier.cpp` | Ker |
| `array/linalg/linalg.hpp`, `core/openclConfig.hpp`, `opencl/kernels/core.cl`, `opencl/kernels/dual.cl` | Knl |
| `array/linalg/level2/gemv.cl`, `array/linalg/level3/gemm.cl` | Knl, Matmul |
| `src/openclConfigure.cpp` | Knl, Select |
| `opencl/kernels/transpose.cl` | Knl, Transpose |
| `array/arrayIterator.hpp` | Lazy, View |
| `math/vectorImpl.hpp` | Mag, Vector |
| `datastructures/map.hpp` | Map |
| `array/linalg/level2/gemv.cu`, `array/linalg/level3/geam.hpp` | Matmul |
| `cxxblas/level1extensions/gescal.tcc`, `cxxblas/tinylevel1/gescal.tcc` | Matmul, Tri |
| `math/multiprec.hpp`, `src/multiprecCasting.cpp`, `src/multiprecModAbs.cpp` | Mpc |
| `src/multiprecToString.cpp` | Mpc, Mpf |
| `cxxblas/auxiliary/pow.tcc`, `cxxblas/level1/nrm2.tcc` | Nrm |
| `math/utilityFunctions.hpp` | Num, Round |
| `opencl/openclStorage.hpp` | Ocl |
| `cxxblas/level2/hbmv.tcc`, `cxxblas/level2/hpmv.tcc`, `cxxblas/level2/hpr.tcc`, `cxxblas/level2/sbmv.tcc`, `cxxblas/level2/spmv.tcc`, `cxxblas/level2/spr.tcc`, `cxxblas/level2/spr2.tcc`, `cxxblas/level2/tbmv.tcc`, `cxxblas/level2/tbsv.tcc`, `cxxblas/level2/tpmv.tcc`, `cxxblas/level2/tpsv.tcc` | Pack |
| `src/global.cpp` | Random |
| `math/round.hpp`, `src/fastMath.cpp` | Rnd, Round |
| `utils/serialize.hpp` | Serial |
| `datastructures/set.hpp` | Set |
| `array/shape.hpp`, `core/config.hpp` | Shape |
| `array/strideTools.hpp` | Shape, View |
| `cxxblas/level1extensions/syscal.tcc`, `cxxblas/level2/hemv.tcc`, `cxxblas/level2/her.tcc`, `cxxblas/level2/her2.tcc`, `cxxblas/level2/symv.tcc`, `cxxblas/level2/syr.tcc`, `cxxblas/level2/syr2.tcc`, `cxxblas/level2extensions/hemv.tcc`, `cxxblas/level2extensions/her.tcc`, `cxxblas/level2extensions/her2.tcc`, `cxxblas/level2extensions/symv.tcc`, `cxxblas/level3/symm.tcc`, `cxxblas/level3/syr2k.tcc`, `cxxblas/level3/syrk.tcc` | Sym |
| `utils/time.hpp` | Time |
| `src/cacheLineSize.cpp`, `src/preMain.cpp` | Transpose |
| `math/vectorForward.hpp` | Vector |

No model: `librapid.hpp`, `array/array.hpp`, `array/linalg/compat.hpp`, `autodiff/autodiff.hpp`, `core/core.hpp`, `core/debugTrap.hpp`, `core/forward.hpp`, `core/genericConfig.hpp`, `core/global.hpp`, `core/gnuConfig.hpp`, `core/helperMacros.hpp`, `core/librapidPch.hpp`, `core/literals.hpp`, `core/log.hpp`, `core/msvcConfig.hpp`, `core/preMain.hpp`, `core/typetraits.hpp`, `core/warningSuppress.hpp`, `cuda/kernels/kernelHelper.cuh`, `datastructures/datastructures.hpp`, `math/compileTime.hpp`, `math/constants.hpp`, `math/fastMath.hpp`, `math/math.hpp`, `math/vector.hpp`, `ml/ml.hpp`, `opencl/opencl.hpp`, `opencl/openclConfigure.hpp`, `opencl/openclErrorIdentifier.hpp`, `simd/simd.hpp`, `utils/cacheLineSize.hpp`, `utils/consoleSize.hpp`, `utils/utils.hpp`, `src/compat.cpp`, `src/consoleSize.cpp`, `src/helper_cuda.cpp`, `src/literals.cpp`, `src/multiprecExpLogPow.cpp`, `src/multiprecFloorCeil.cpp`, `src/multiprecHypot.cpp`, `src/multiprecTrig.cpp`; `cxxblas/` except the files above.

## Axioms per theorem

What `Print Assumptions` lists, grouped; generated by `tools/axioms.py`.

* none (closed under the global context): C01_bitset_history, C01_equality, C01_history_wellformed, C02_range_write_exact, C02_range_write_partial, C02_range_write_refuted, C03_left_then_right_partial, C03_left_then_right_refuted, C03_negative_distance, C03_shift_left_partial, C03_shift_right_partial, C03_shift_undefined_refuted, C04_all_partial, C04_all_refuted, C04_complement_partial, C04_complement_refuted, C05_first, C05_last_empty_refuted, C05_last_partial, C06_logical_read, C06_no_stray_bits_partial, C06_no_stray_bits_refuted, C07_bad_character_rejected, C07_text_round_trip, C08_equality, C08_every_history_specified, C08_index_ascending, C08_index_checked, C08_set_history, C09_union_intersection_difference, C10_symmetric_difference_exact, C10_symmetric_difference_partial, C10_symmetric_difference_refuted, C11_lexicographic, C11_rowmajor_bijection_partial, C11_stride_wrap_refuted, C11_strides_partial, C11_zero_dim_refuted, C12_call_rejects, C12_chain_is_call, C12_chain_rejects, C12_read, C12_read_over_write, C13_equality, C13_matrix_round_trip, C13_matrix_size_partial, C13_matrix_size_refuted, C13_matrix_too_many, C13_shape_from_values, C13_shape_to_matrix, C13_size, C13_too_many_dimensions_refuted, C13_vector_round_trip, C13_vector_size, C14_matrix_negative_refuted, C14_matrix_subshape_partial, C14_subshape, C14_subshape_rejects, C14_vector_subshape_refuted, C15_equal_shapes_accepted, C15_unequal_rejected_partial, C15_unequal_rejected_refuted, C15_what_is_compared, C16_copy_exact, C16_copy_refuted, C16_iterate_nested_exact, C16_iterate_nested_refuted, C16_iterate_partial, C16_view_elements, C17_array_views_ok, C17_assign_shape_mismatch, C17_assign_view, C17_assign_view_same_storage, C17_empty_refuted, C17_eval, C18_fixed_parallel_partial, C18_fixed_parallel_refuted, C18_parallel, C18_serial, C19_construct, C19_empty_view_refuted, C19_mismatch_refuted, C19_same_shape_partial, C19_same_size_rejected_partial, C19_unchecked_refuted, C19_view, C20_gpu_missing_refuted, C21_assign_to_moved_refuted, C21_leak_free_partial, C21_move_assign_leaks_refuted, C21_safe_partial, C22_assign_empty_refuted, C22_fixed_copy_refuted, C22_independent, C22_read, C22_value_semantics_partial, C23_fixed_resize, C23_non_owning_refuses, C23_resize_discard, C23_resize_keeps_prefix, C24_heap_bitset_partial, C24_shallow_refuted, C25_from_data, C25_matrix, C25_matrix_empty_refuted, C25_matrix_rejects_partial, C25_rejects, C26_arange1_negative_refuted, C26_arange1_partial, C26_arange2, C26_arange_double_partial, C26_arange_double_refuted, C26_arange_int, C26_arange_rejects, C26_covers_partial, C26_covers_refuted, C26_filled, C26_linspace_int_refuted, C26_ordered, C27_comma, C27_too_many_partial, C27_too_many_refuted, C28_avx_double_contents_refuted, C28_avx_double_refuted, C28_block_loops_partial, C28_block_loops_refuted, C28_eval, C28_generic, C28_kernels, C28_opencl, C28_simd_alpha_refuted, C28_simd_bounds_refuted, C28_simd_nonsquare_refuted, C28_simd_partial, C29_assign_refuted, C29_axes_refuted, C29_identity_refuted, C29_rank_rejected, C29_scale, C29_shape_partial, C29_twice, C30_matmul, C30_rejects, C30_serial, C31_empty_refuted, C31_matvec_partial, C31_rejects, C31_transposed_refuted, C31_vector_left_refuted, C32_dot, C32_folding, C33_gemm_bounds_refuted, C33_gemm_partial, C33_gemm_tiles_refuted, C33_gemm_transA_refuted, C33_gemv, C33_gemv_launch, C34_geam_partial, C34_mismatch, C34_own_factor_refuted, C35_half_to_float_exact, C35_round_trip_partial, C35_round_trip_undefined_refuted, C35_round_trip_zero_partial, C35_signalling_nan_refuted, C36_defined_refuted, C36_nearest_partial, C36_overflow_partial, C36_quiet_nan_partial, C36_signalling_nan_refuted, C36_ties_to_even_refuted, C36_wrong_values_refuted, C37_nan_refuted, C37_order_partial, C37_zeros_refuted, C38_add_commutes_partial, C38_add_rounds, C38_add_special_refuted, C38_add_zero, C38_constants, C38_constants_refuted, C38_multiply_commutes, C38_multiply_nan_refuted, C38_multiply_one, C38_multiply_refuted, C38_multiply_rounds_partial, C38_multiply_special, C38_multiply_subnormal_partial, C38_multiply_subnormals, C38_multiply_underflow_partial, C38_negate, C38_post_increment_refuted, C38_pre_increment_decrement, C38_self_difference, C38_subtract_rounds, C38_undefined_refuted, C39_leading_digit_exists, C39_roundSigFig_integer_refuted, C39_roundSigFig_partial, C39_roundSigFig_seven_refuted, C39_roundTo_integer_partial, C39_roundTo_integer_refuted, C39_roundTo_negative_refuted, C39_roundTo_partial, C39_roundUpTo_integer_partial, C39_roundUpTo_negative_refuted, C39_roundUpTo_partial, C39_round_half_even_partial, C39_round_half_even_refuted, C39_round_integer_partial, C39_round_nearest_partial, C39_round_seven_decimals_refuted, C39_round_truncate_partial, C39_round_up_refuted, C40_clamp_partial, C40_clamp_swapped_refuted, C40_isClose_reflexive, C40_isClose_spec, C40_isClose_symmetric, C40_lerp, C40_map, C40_map_integer, C40_min_max, C40_smoothStep, C41_pow10_partial, C41_pow10_seven_refuted, C42_randint_double_rounding_refuted, C42_randint_mixed_signs_partial, C42_randint_negative_refuted, C42_randint_nonnegative_partial, C42_randint_zero_refuted, C42_random_integral, C42_random_range, C43_gaussian_leftover_refuted, C43_mixed_instantiations_refuted, C43_one_instantiation_partial, C46_assignment_refuted, C49_assignment_defined, C49_cast_partial, C49_cast_refuted, C49_construct, C49_cross, C49_division_refuted, C49_elementwise, C49_inplace, C49_reductions_include_padding, C49_reductions_partial, C49_reductions_refuted, C49_str, C49_zero_padding_partial, C50_file_round_trip, C50_other_type_refuted, C50_round_trip, C50_text_file_refuted, C50_truncated_refuted, C50_type_check_partial, C53_batch_is_mt19937_partial, C53_incremental_repeats_refuted, C53_sequence_exists, C54_map, C54_str, C54_unordered_map, C55_axpy, C55_copy, C55_dot, C55_iamax, C55_outside, C55_overlap_order, C55_rot, C55_scal, C55_swap, C55_zero_increment, C56_aligned, C56_brackets, C56_nested, C56_points_line_up, C56_text, C57_conj_refuted, C57_cxxblas_gemm_partial, C58_spec_partial, C58_spec_refuted, C59_default_refuted, C59_lifetime, C59_no_leak, C60_assign_empty_refuted, C60_assign_to_moved_refuted, C60_reference, C60_reference_reads, C60_reference_stays, C60_value_semantics_partial, C61_copy_construct_refuted, C61_default_refuted, C61_leak_free_partial, C61_move_assign_leaks_refuted, C61_safe_partial, C62_assign_empty_refuted, C62_assign_to_moved_refuted, C62_fill_empty_refuted, C62_read, C62_unchecked_index_refuted, C62_value_semantics_partial, C63_cuda_grid, C63_cuda_kernel_elementwise, C63_opencl_kernel_elementwise, C64_cuda_assign, C64_opencl_assign, C65_cuda_large_refuted, C65_cuda_width3_refuted, C65_empty_refuted, C65_opencl_large_refuted, C65_opencl_mixed_refuted, C66_text_denotes_value, C66_text_injective, C67_default_is_best, C67_gpu_preferred, C67_no_device, C67_prompt, C67_prompt_sound, C71_device_range, C71_device_range_integral, C71_host_range, C71_upper_bound_refuted, C72_device_descent, C72_device_not_reseeded_refuted, C72_device_repeats_refuted, C72_device_reproducible_partial, C72_device_small_partial, C72_first_number_is_seed_refuted, C72_host_parallel_refuted, C72_host_reproducible, C72_stored_seed, C72_threads, C73_compound, C73_dot, C73_elementwise, C73_plus_transpose_refuted, C73_row_partial, C73_row_refuted, C73_sub_array, C73_transpose_partial, C73_transpose_refused, C73_transpose_refuted, C73_view_partial, C74_assign_refuted, C74_at_once, C74_blocks, C74_copy_partial, C74_copy_refuted, C74_current, C74_frame, C74_mismatch, C74_outlived_refuted, C74_resized_refuted, C74_scoped, C74_temporary_row_refuted, C76_trmm, C76_trmv, C77_round_trip, C77_trsm, C77_trsv, C78_hemm, C78_hemv, C78_symm, C78_symv, C79_gerc, C79_geru, C79_her, C79_her2, C79_her2k, C79_herk, C79_hermitian_modes, C79_syr, C79_syr2, C79_syr2k, C79_syrk, C85_cells, C85_hpmv, C85_hpr, C85_hpr2, C85_round_trip, C85_spmv, C85_spr, C85_spr2, C85_tpmv, C85_tpsv, C86_gbmv, C86_gbmv_empty, C86_hbmv, C86_round_trip, C86_sbmv, C86_tbmv, C86_tbsv, C89_base, C89_general, C89_general_columns, C89_half_columns_columns, C89_half_rows_columns, C89_hermitian_columns, C89_hermitian_rows, C89_sorted, C89_symmetric_columns, C89_symmetric_rows, C89_unsorted_refuted, C90_geaxpby, C90_geaxpy, C90_gecopy, C90_gecotr, C90_gecotr_square, C90_geraxpy_partial, C90_geraxpy_refuted, C90_gerscal, C90_geswap_partial, C90_geswap_refuted, C90_vectors, C91_tpaxpby, C91_tpaxpby_transposed_partial, C91_tpaxpby_unit_refuted, C91_tpaxpy, C91_tpaxpy_refuted, C91_tpaxpy_transposed_partial, C91_tpcopy, C91_tpcopy_transposed_partial, C91_tpcopy_transposed_refuted, C91_tpscal, C91_tpscal_unit_partial, C91_tpscal_unit_refuted, C91_traxpby_partial, C91_traxpy_partial, C91_traxpy_unit_refuted, C91_trcopy, C91_trcopy_unit_partial, C91_trcopy_unit_refuted, C91_trscal_partial, C91_trscal_refuted, C92_gbaxpby_partial, C92_gbaxpy_partial, C92_gbcopy_partial, C92_gbcopy_refuted, C92_gbcotr, C92_gbcotr_square, C92_gbscal, C98_gbmm, C98_hbmm, C98_sbmm, C98_tbmm_partial, C98_tbmm_refuted, C101_abs, C101_bad_text, C101_copySign, C101_exact, C101_from_mpfr_partial, C101_from_mpfr_small_refuted, C101_integer_to_mpfr, C101_ldexp_negative_refuted, C101_ldexp_partial, C101_mpf_to_mpfr, C101_mpfr_to_integer_partial, C101_mpfr_to_integer_refuted, C101_not_finite, C101_signBit_partial, C101_signBit_refuted, C101_text, C101_text_digits_refuted, C101_to_integer, C101_types_exist, C103_cut, C103_distinct, C103_empty_prelude_refuted, C103_fresh, C103_history, C103_relative_refuted, C103_stable, C103_unchecked_refuted, C104_names, C104_newer_refuted, C104_total, C108_value, C111_binary_partial, C111_binary_types_refuted, C111_class_types_refuted, C111_fill, C111_names_distinct, C111_narrow, C111_product_partial, C111_product_types_refuted, C111_same_type_partial, C111_sigmoid, C111_transpose_partial, C111_transpose_unsigned_refuted, C111_type_names, C111_type_names_refuted, C111_unary_missing_refuted, C111_unary_partial, C112_assign_partial, C112_empty_refuted, C112_float2, C112_gemm_complex_refuted, C112_gemm_fallback_partial, C112_gemm_library, C112_gemm_narrow_refuted, C112_missing_refuted, C112_mixed_refuted, C112_names_distinct, C112_rejected_refuted, C112_width3_refuted, C114_acxpy, C114_axpy, C114_chars, C114_conj_refuted, C114_contracts, C114_ctrmv_refuted, C114_dot, C114_empty_refuted, C114_gbmv, C114_gemm_partial, C114_gemm_real_partial, C114_gemv, C114_hpr2_refuted, C114_iamax_empty_refuted, C114_level1_partial, C114_negative_refuted, C114_plain_partial, C114_triangular.
* `ClassicalDedekindReals.sig_forall_dec`: C46_assignment_partial.
* `ClassicalDedekindReals.sig_forall_dec`, `FunctionalExtensionality.functional_extensionality_dep`: C20_array_binary, C20_binary, C20_binary_nan, C26_arange_real, C26_linspace_one_refuted, C26_linspace_partial, C26_linspace_rejects, C44_compound_exact, C44_compound_partial, C44_compound_refuted, C44_device_in_place_refuted, C44_device_kernel, C46_compound_alias_exact, C46_compound_alias_refuted, C46_compound_complex, C46_compound_scalar_partial, C46_equality, C46_field_laws, C46_field_operations, C46_scalar_operations, C47_root_unique, C51_formatTime, C51_formatTime_rounded, C52_average_refuted, C52_elapsed, C52_elapsed_refuted, C52_loop, C52_sleep, C97_crot, C97_rot, C102_root_unique, C108_polynomial_bound, C110_bound.
* `ClassicalDedekindReals.sig_forall_dec`, `ClassicalDedekindReals.sig_not_dec`, `FunctionalExtensionality.functional_extensionality_dep`: C45_integer_elements, C47_principal_root, C47_sqrt_float_partial, C48_by_exponentials, C48_exponential, C48_identities, C48_modulus, C48_reciprocals, C48_tangent_partial, C49_fromPolar, C49_norm_partial, C88_dims, C88_dims_unchecked, C88_ends, C88_energy, C88_fftw, C88_fftw_refuted, C88_injective, C88_inverse, C88_linear, C88_rest, C88_rfft, C96_cnrm2, C96_nrm2, C97_crotg, C97_rotg, C97_rotg_recover_partial, C97_rotg_recover_refuted, C97_rotg_rot, C106_distance.
* `ClassicalDedekindReals.sig_forall_dec`, `ClassicalDedekindReals.sig_not_dec`, `Classical_Prop.classic`, `FunctionalExtensionality.functional_extensionality_dep`: C20_array_parallel_partial, C20_array_serial_partial, C20_gpu_partial, C20_misnamed_refuted, C20_spec_functional, C20_unary_int_partial, C20_unary_partial, C26_logspace_partial, C44_chain_rule, C44_value_and_derivative, C45_agrees_with_dual, C45_chain, C45_layers, C45_sigmoid_backward, C45_sigmoid_range, C48_polar, C68_bases, C68_branch_cut, C68_exp_log, C68_log_exp, C68_modulus_algorithm, C69_cube_root, C69_exponentials, C69_pow_is_exp_log, C69_power_laws, C69_zero_power, C70_acos, C70_acosh_partial, C70_acosh_refuted, C70_asin, C70_asinh, C70_atan, C70_atanh, C70_reciprocals, C75_addSmallX2, C75_addX2, C75_float_norm_refuted, C75_float_square, C75_log_modulus, C75_logp1, C75_norm_minus_one, C75_sqrX2, C75_sqrX2_underflow_refuted, C80_blas, C80_dot_any_order, C80_matmul, C80_matvec, C80_sum_any_order, C80_vector, C81_arange, C81_arange_count_refuted, C81_linspace, C81_linspace_end_refuted, C81_linspace_integers, C81_linspace_no_overflow, C81_linspace_one_refuted, C81_linspace_overflow_refuted, C82_clamp, C82_isClose, C82_isClose_infinite_refuted, C82_isClose_nan, C82_lerp, C82_lerp_nan, C82_lerp_overflow_refuted, C82_smoothStep, C82_smoothStep_above_one_refuted, C83_randint_partial, C83_randint_refuted, C83_randint_zero, C83_random, C83_random_float_refuted, C83_random_half_open_refuted, C84_div, C84_div_overflow_refuted, C84_div_part_refuted, C84_div_self, C84_div_self_imag_refuted, C84_div_zero, C84_mul, C87_half_even_partial, C87_half_even_undefined_refuted, C87_places, C87_places_down, C87_places_refuted, C87_round, C87_roundTo, C87_roundUpTo, C87_significant, C87_significant_ends, C87_significant_infinite_refuted, C87_special, C87_truncate, C93_divide_exact, C93_divide_infinite, C93_divide_nan, C93_divide_one, C93_divide_rounded, C93_divide_self, C93_divide_zero_partial, C93_overflow_refuted, C93_subnormal_refuted, C94_double_round_trip, C94_from_double_exact, C94_from_double_faithful_partial, C94_from_double_nearest_refuted, C94_from_integer_partial, C94_from_integer_refuted, C94_to_double_exact, C94_to_double_infinity, C94_to_integer, C94_to_integer_undefined, C95_trmv, C95_trsv_backward, C95_trsv_finite_refuted, C95_trsv_forward, C95_trsv_integers, C95_trsv_residual, C96_cnrm2_float, C96_nrm2_float, C96_square, C97_rotg_overflow_refuted, C99_accuracy, C99_backward, C99_exp_exists, C99_monotone, C99_open_interval_refuted, C99_range, C99_saturation, C99_special, C100_mag, C100_nonnegative, C100_norm, C100_overflow_refuted, C100_underflow_refuted, C102_accurate, C102_conjugate, C102_real_axis, C102_special, C102_zero_sign_refuted, C105_factor, C105_fold_refuted, C105_gemm, C105_gemm_alpha_zero, C105_gemv, C105_matmul, C105_matvec, C106_blas, C106_matmul, C106_matvec, C106_part_refuted, C106_scale, C107_finite, C107_infinite_component, C107_infinite_partial, C107_infinite_refuted, C107_nan, C107_symmetric, C107_zero, C108_constant, C108_constant_refuted, C108_divide, C108_divide_refuted, C108_divide_scalar, C108_exact_scalars, C108_integers, C108_polynomial, C108_sqrt, C109_annex_g_refuted, C109_special, C109_symmetric, C109_tan, C109_tanh, C109_unique, C110_exp, C110_exp_finite, C110_hyperbolic, C110_library, C110_overflow_refuted, C110_polar, C110_real_axis_partial, C110_real_axis_refuted, C110_special, C110_symmetric, C110_trigonometric, C113_trmm, C113_trmm_range_refuted, C113_trmm_zero, C113_trsm, C113_trsm_one, C113_trsm_range_refuted, C113_trsm_scaled, C113_trsm_zero_refuted, C115_bounded, C115_disc, C115_draw, C115_float, C115_library, C115_pair, C115_second, C115_waits, C116_annihilates, C116_rot, C116_rotation, C116_rotg, C116_z_refuted, C116_zero, C117_alpha_zero_refuted, C117_divide, C117_ger, C117_ger_order_refuted, C117_integers, C117_matrices, C117_scale, C117_vectors, C118_alpha_zero_refuted, C118_columns, C118_integers, C118_order_refuted, C118_product, C118_transposed.
