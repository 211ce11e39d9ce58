{
"C01": {
"note": "All histories of in-range single-bit writes, any n; plus well-formedness and equality."
},
"C02": {
"note": "False in the code: set(5,10,true) also writes 0..4. Proved when the range starts on a word boundary or spans words, and the exact set of touched positions in every case."
},
"C03": {
"note": "False in the code: a distance that is a non-zero multiple of 64 with at least two words left, or larger than the capacity, is undefined behaviour; << leaves bits past n. Proved for every other distance; equivalence of the undefined cases proved."
},
"C04": {
"note": "False in the code: ~ clears the last word when n % 64 == 0; all() is never true when n % 64 != 0. Proved for the complementary sizes."
},
"C05": {
"note": "first() proved for all sets; last() proved on non-empty sets, undefined on the empty set."
},
"C06": {
"note": "Reads are right for all pairs of sizes; |= and ^= with a larger right operand set positions outside the set (refuted), proved absent when the right operand is not larger and for &=."
},
"C07": {
"note": "Round trip for every size and content; rejection of any other character."
},
"C08": {
"note": "Any strict total order, any construction, any history, assertions on or off."
},
"C09": {
"note": "Union, intersection and difference for all pairs of sets."
},
"C10": {
"note": "False in the code: a ^ b keeps an element found in only one operand only when the other operand has a larger element. The exact result is proved; the full claim is proved when both sets have the same largest element."
},
"C100": {
"note": "Holds for every format, SIMD width and expression whose padding lanes are zero. C100_overflow_refuted and C100_underflow_refuted: mag does not scale its elements, so (2^600, 0) has length infinity and direction 0, and (2^-600, 0) has length 0 and direction (infinity, NaN)."
},
"C101": {
"note": "partial: small mpfr numbers become 0, toMpz(mpfr) rounds 1-2^-53 up, str's digits are taken as bits, signBit(0) is true, ldexp by a negative exponent fails (refuted with witnesses)"
},
"C102": {
"note": "Proved for every precision between 24 and 53 with 3p+8 <= emax, so for float and double. The sign of a NaN is not modelled. Refuted: a negative real with imaginary part -0 has a root with real part -0."
},
"C103": {
"note": "the cache key ignores the relative flag, failures are cached when assertions are off, and an empty prelude file drops everything after it (refuted)"
},
"C104": {
"note": "codes -13 to -19 of OpenCL 1.1 and 1.2 have an empty name (refuted)"
},
"C105": {
"note": "C105_fold_refuted: the factors are multiplied with each other first, so the product can be infinite (or zero) although every scaled element and the exact result are ordinary numbers"
},
"C106": {
"note": "Operands without factors only (all lazy factors are 1). Refuted: independence of the parts, since a matrix product ends with a multiplication by alpha = 1 + 0i."
},
"C107": {
"note": "Refuted: a negative infinite component gives -inf. logHypot<float>, which Complex<float> uses, lacks the doubled precision near the unit circle, see C75."
},
"C108": {
"note": "The derivative of a quotient squares the divisor: for divisors around 2^600 or 2^-600 it becomes 0, infinite or NaN although the exact derivative is an ordinary double (refuted)."
},
"C109": {
"note": "The real sinh and tan are parameters with a one-ulp contract; the largest tangent is assumed below 2^(emax/4)."
},
"C11": {
"note": "Proved for 1..16 dimensions, positive extents and fewer than 2^32 elements; lexicographic order. Refuted: the stride of a zero-dimensional shape is undefined, and strides wrap at 2^32."
},
"C110": {
"note": "real axis proved where the real functions stay finite, refuted where they overflow; a part can overflow although its exact value is in range"
},
"C111": {
"note": "Finite table of kernels, all element types and operand arrangements. exp2, exp10, unsigned transposes, small and mixed types, Dual and Complex refuted."
},
"C112": {
"note": "Partial: float and double in one assignment, functions without a kernel, packets of three, and bool, Complex, half and Dual arrays are excluded; the first four are refuted by theorems."
},
"C113": {
"note": "Residual bounds for op(T) Y = B, for alpha = 1 and for any alpha; error bound for trmm; zeros for alpha = 0 in trmm. Refuted: zero from trsm with alpha = 0 (an overflow in the solve leaves a NaN), and finiteness of trsm and trmm when the exact result is representable (alpha is applied last)."
},
"C114": {
"note": "Real overloads and ctrmv pass Conj on, which MKL and Accelerate builds turn into ConjTrans (C114_conj_refuted, C114_ctrmv_refuted); CXXBLAS_NO_TEMPORARY scales y for empty matrices (C114_empty_refuted); hpr2 passes the address of one real as a complex alpha (C114_hpr2_refuted); asum, scal and iamax differ for negative increments, iamax also for empty vectors (C114_negative_refuted, C114_iamax_empty_refuted). C114_gemm_partial leaves out the two combinations of C57. The libraries themselves are not modelled, and hbmv's overloads do not compile."
},
"C115": {
"note": "the distribution of the results is not part of the claim"
},
"C116": {
"note": "C116_z_refuted: a = 2^-1060, b = 1 gives z = infinity although c and s are finite; everything else is proved. Lengths below 2^(7-emax) and sums of moduli above 2^(emax-2) are outside the theorems (C97_rotg_overflow_refuted shows the latter can fail)."
},
"C117": {
"note": "C117_alpha_zero_refuted: axpy with alpha = 0 and an infinite x gives NaN. C117_ger_order_refuted: alpha = 2^1000, x = 2^100, y = 2^-200 overflows for row-major and not for column-major matrices. The complex versions are not covered."
},
"C118": {
"note": "The two refuted theorems show that alpha = 0 is not treated specially and that the storage order matters."
},
"C12": {
"note": "All shapes and indices; chain of [] equals (); every bad index or index count is reported."
},
"C13": {
"note": "Refuted: more than 16 dimensions is undefined instead of rejected; MatrixShape::size wraps at 2^32. The other parts hold for all shapes."
},
"C14": {
"note": "Shape: all bounds. MatrixShape: non-negative bounds only (negative ones are rejected). VectorShape: always (0), refuted."
},
"C15": {
"note": "Complete; sound only for at most two shapes; exact characterisation of what is compared."
},
"C16": {
"note": "Indexing proved at every depth. Copy of a view loses its offset (refuted), so nested iteration is wrong beyond one dimension (exact result proved)."
},
"C17": {
"note": "All shapes with positive extents, any strides and offsets, also inside one storage; a zero extent is undefined behaviour (refuted)."
},
"C18": {
"note": "Serial evaluation and parallel evaluation of dynamic storage proved for every width, size, expression and interleaving of single loads and stores. Fixed-size storage in parallel: proved when vectorised; unvectorised it assigns nothing (refuted)."
},
"C19": {
"note": "False in the code: a size mismatch is reported after the old elements are gone (with assertions) or not at all (without); proved when the shape agrees or only the element count agrees, for construction and for views."
},
"C20": {
"note": "Proved over exact reals (and truncated integers) for 19 of 24 unary functions and all 10 binary operators, per element and through the evaluation loops; asinh, acosh, atanh, exp2, exp10 are bound to sinh, cosh, tanh, exp, exp (refuted). GPU kernels that exist are right; the exp2/exp10 (and CUDA asinh/acosh/atanh) kernels do not exist. std:: and xsimd functions are trusted; rounding not modelled."
},
"C21": {
"note": "False in the code: move assignment leaks the target's block and assigning to a moved-from storage is undefined (or corrupts it after throwing). Proved for all other histories over any number of objects, allocation and free explicit, exceptions caught and continued."
},
"C22": {
"note": "Value semantics of every command after any history; independence of all other objects. False for assignment from an empty storage (a no-op) and for FixedStorage::copy."
},
"C23": {
"note": "Both overloads, any history before, assertions on or off; a non-owning storage refuses when assertions are on."
},
"C24": {
"note": "Deep copies, writes and destruction proved safe for all histories; every move or assignment between two heap BitSets ends in a double delete (refuted)."
},
"C25": {
"note": "Proved for every depth and every rectangular non-empty data below 2^32 scalars (dynamic Shape path, both assertion settings), and rejection of everything else with assertions on. The MatrixShape path is proved for rectangular data and rejects ragged data, but accepts a list of empty rows (refuted)."
},
"C26": {
"note": "Integer arange into int64 arrays, arange over the reals, linspace (n >= 2 or end excluded), logspace, zeros, ones, ordered proved. False parts refuted with witnesses: negative values in floating arange wrap through size_t, a last term before stop is left out when step does not divide the range, arange(negative) counts up, linspace/logspace with n = 1 and includeEnd divides by zero."
},
"C27": {
"note": "Values that fit are written in order and the rest kept; too many values throw with assertions on, and are written out of bounds without them (refuted)."
},
"C28": {
"note": "Generic routine, OpenCL kernel, and the float AVX2/SSE/NEON and double SSE/NEON block kernels proved for all sizes, schedules and factors. Vectorised drivers proved for square matrices only: for non-square ones they use the wrong stride (refuted, including an out-of-bounds read); the AVX2 double kernel does not transpose (refuted); the float remainder loop drops alpha (refuted). cuBLAS path not modelled. The block loops end for elements no larger than a cache line and never end for larger ones (block size 0, refuted)."
},
"C29": {
"note": "Double transposition through eval() and folding of scale factors proved for the generic routine; other ranks are rejected. Explicit axes are always discarded by transpose() (refuted) and assignment of a double transpose is not implemented (refuted)."
},
"C30": {
"note": "CPU path, exact arithmetic in any commutative semiring (all exact integer types; floating-point rounding and external CBLAS not covered). All nestings of lazy transposes and factors, all shapes, any uninitialised result storage, every interleaving of the column threads. Rejection of incompatible extents when assertions are on."
},
"C31": {
"note": "Proved for A used as stored or square (any scaling). Refuted: transposed non-square A leaves the buffers (m and n are passed for op(A), the BLAS routine expects those of A); a matrix without columns leaves the result uninitialised; dot(vector, matrix) and dot(vector, vector) never return."
},
"C32": {
"note": "Flags cancel in pairs, factors multiply, and dot of any nestings equals dot of the evaluated operands (matrix operands)."
},
"C33": {
"note": "gemv kernel correct for every order of work items. gemm kernel correct only for one-tile untransposed products whose inner extent equals the tile size; refuted otherwise (reads outside B, ignores the flag of A, wrong B index for further tiles and transposed B)."
},
"C34": {
"note": "Correct for operands that are arrays or plain lazy transposes and a right transposition routine (C28). Refuted: the factor of a lazily scaled transpose is dropped."
},
"C35": {
"note": "half->float is proved exact for all 65536 patterns under every shift semantics. The way back is proved the identity for non-NaN non-zero values on any machine that returns something for out-of-range shifts, and for zeros when that value is below 2^13. Refuted: strict C++ makes the round trip undefined (1.0), signalling NaN 0x7c01 comes back as infinity."
},
"C36": {
"note": "Proved: nearest, ties away, from 2^-14 up to 65520; infinities and |x| >= 2^17; quiet NaN; exact characterisation of which floats hit an undefined shift. Refuted: ties to even, definedness, 70000 -> NaN, 131071 -> -0, values just below 2^-14 are halved, signalling NaN -> infinity."
},
"C37": {
"note": "Proved for non-NaN pairs that are not both zero. Refuted: -0 == +0, NaN == NaN is true, 1 < NaN is true."
},
"C38": {
"note": "Proved: correctly rounded sums and differences of finite halfs, commutativity of sums on finite halfs and of products on all bit patterns, x+0, x-x, x*1 for every x but NaN, unary minus, pre-increment/decrement, constants; products of normals with normal result outside the lost-carry range are nearest, products below the normal range are within two units (nearest for exponent fields summing to 7 or more), subnormal times a normal below two within one unit, subnormal times subnormal is zero, infinity and zero products. Refuted: post ++/--, NaN/infinity propagation (a NaN factor always gives infinity), overflow (NaN), lost rounding carry in halfMul, subnormal times a factor of two or more, undefined shifts, negativeOne and negativeHalf."
},
"C39": {
"note": "Model over Q (exact arithmetic). Nearest and truncating modes proved for every dp except \u00b17 (wrong pow10 table entry), half-even proved at ties, roundTo/roundUpTo for non-negative numbers, roundSigFig on floats outside [1e7,1e8] and figs<>8. Refuted: UP does not round up, HALF_EVEN truncates non-ties, dp=7, roundTo/roundUpTo on negative numbers, integer roundTo with odd step, integer roundSigFig."
},
"C40": {
"note": "Model over Q. lerp, smoothStep (monotone, documented polynomial, end values), map, isClose, min/max proved for all arguments; clamp proved for lower<upper; the documented swapped-bounds behaviour is refuted."
},
"C41": {
"note": "10^e for every exponent except 7 (exact arithmetic); the table entry for 10^7 is 10^6, refuted."
},
"C42": {
"note": "Bounds and surjectivity proved over exact arithmetic for 0<=lo<=hi, and for lo<0<=hi when the draw is not exactly 0. Refuted: draw 0 with negative lo gives lo-1; both bounds negative can give hi+1; in binary64 randint(1,1) gives 2 for the largest draw below 1 (rounding of the sum)."
},
"C43": {
"note": "Proved for call sequences that use one instantiation of random (the hidden generator is per instantiation). Refuted for mixed instantiations (only the first one called after setSeed is reseeded) and for randomGaussian (cached second value survives reseeding). The generator is a parameter of the theorems."
},
"C44": {
"note": "Proved for every expression over the Dual operators and functions (also for Duals coming from any differentiable g), at every point where the sub-expressions are differentiable, over the reals. *= and /= with a Dual are refuted (they read the already updated value); the exact condition under which they are right is proved. The OpenCL multiply/divide kernels have the same fault in place. pow(x, 0) at x = 0 is excluded (the code computes 0*inf). Rounding is not modelled."
},
"C45": {
"note": "Proved over the reals, for one activation and any chain of layers; integer arrays always store 0. In binary64 forward rounds to exactly 1 for large x: rounding is not modelled."
},
"C46": {
"note": "Proved for the four operators, mixed scalar forms and compound forms with any Complex operand (also z op= z). Refuted: assignment from another Complex type copies the real part into the imaginary part; z *= z.real() and z /= z.real() read the updated real part (exact conditions proved). Over the reals."
},
"C47": {
"note": "With exact constants (the multi-precision path) sqrt is proved to be the unique principal root for every z. With the decimal literals of the floating path the square equals z up to 1e-32 |z|. Rounding is not modelled."
},
"C48": {
"note": "Proved over the reals; tan/tanh excluded where the real tangent used by the code has no value (no floating-point number is such a point)."
},
"C49": {
"note": "Elementwise arithmetic, construction, cross, fromPolar and text hold for all N, packet widths and padding contents. sum/dot/mag2/norm are proved when N is a multiple of the packet width (so always for scalar storage) and for zero-preserving expressions on zero padding; refuted otherwise (padding lanes are added in). Also refuted: widening cast of SIMD vectors (out of bounds read), integer division (divides in padding lanes)."
},
"C50": {
"note": "Round trip proved for every object and type, in memory and through a binary file; the type check is proved for data long enough with assertions on. Refuted with witnesses: truncated data (read past the end), assertions off or a type with the same name hash, and text-mode files."
},
"C51": {
"note": "Proved for exact scaling and, with a bound, when every step of the scaling rounds."
},
"C52": {
"note": "Elapsed time, loop bound and sleep proved for any monotone clock. Refuted with witnesses: setTargetTime after stop, and the average counts one check of the loop too many."
},
"C53": {
"note": "The batch function is proved to be MT19937 for all seeds and draw counts. The incremental function used by the kernels is refuted: it returns the tempered seed at draws 0, 623, 1246, ... for every seed."
},
"C54": {
"note": "Proved for any history of insert, operator[] and erase; the standard containers underneath are read from the C++ standard. get(key) const does not compile when used and is left out."
},
"C55": {
"note": "Proved for the generic templates with mathematical integers, any n and any increment (zero increments have their own theorem); overlap is allowed as long as no element is overwritten before it is read. The CBLAS overloads call an external library."
},
"C56": {
"note": "Proved for every array of general shape, for the pieces of text and for the characters; fmt's rendering of one element is a parameter."
},
"C57": {
"note": "All orders and mode pairs except conjugate x as-is and conjugate-transposed x conjugate, which drop a conjugation (refuted on Gaussian integers); increments of gemm only (positive)."
},
"C58": {
"note": "Specifications of up to 15 characters are kept; from 16 characters on the 16-byte buffer is left unterminated or overrun (refuted)."
},
"C59": {
"note": "Lifetime of cl::Buffer handles proved for every history (sharing included); reading the size a default-constructed storage never initialises is undefined (refuted part)."
},
"C60": {
"note": "Value semantics proved except copy assignment to a moved-from storage and copy assignment of an empty storage, both refuted; element references proved."
},
"C61": {
"note": "Proved except: copy construction of a non-empty storage (a device-to-device copy is issued as host-to-device, undefined), use of a default-constructed storage's uninitialised size, and the leak of a move assignment; all refuted with witnesses."
},
"C62": {
"note": "Proved for every command except assignment to a moved-from storage, assignment of an empty storage, out-of-range indexing (silently reads padding) and the fill constructor with size 0, all refuted."
},
"C63": {
"note": "Kernels are elementwise functions run by threads that interleave their single reads and writes arbitrarily; index arithmetic is 32-bit as in the kernels."
},
"C64": {
"note": "The evaluator's temporaries, kernel launches and packets are modelled; element arithmetic is an arbitrary function. Subexpressions are evaluated left to right. The OpenCL theorem covers one element type (see C65)."
},
"C65": {
"note": "False: refuted with witnesses for empty arrays (throws when assertions are on), more than 2^32 (CUDA) or 2^31 (OpenCL) elements, packet width 3, and mixed element types on OpenCL."
},
"C66": {
"note": "mpf_get_str of GMP is trusted; everything str does with its result is modelled."
},
"C67": {
"note": "The default-choice theorem needs a working device with a positive score (any device with at least 1 MB of memory). The self-test itself is an input. The score multiplies modulo 2^32 as the code does."
},
"C68": {
"note": "Real arithmetic; sign bits of zeros are explicit arguments. The float algorithm for ln|z| is covered with its truncation error, rounding is not."
},
"C69": {
"note": "Over the reals, for all bases and exponents where the code's branches apply."
},
"C70": {
"note": "acosh of a real number below -1 has a negative real part for multi-precision components, because copySign for such types ignores the sign of zero (C70_acosh_refuted); every other case is proved."
},
"C71": {
"note": "Proved over exact arithmetic for every schedule, size and seed with the MT19937 code of the kernels, and for the CPU loops. In binary64 the upper bound itself can be returned (refuted: numbers near 2^64 round up before scaling)."
},
"C72": {
"note": "Reproducible on the CPU with one thread, and on devices up to 1024 elements when fillRandom is the first random call after setSeed. Refuted: larger device arrays depend on the schedule and can repeat with period 1024, host calls in between cancel the reseeding, parallel CPU fills share an unprotected generator, and a thread's first number is the tempered seed."
},
"C73": {
"note": "Proved for elementwise occurrences, sub-arrays of equal depth and matrix products, in any order. False: a = transpose(a) without assertions gives a symmetric matrix (refused with them), a = a + transpose(a) and a += transpose(a) read replaced elements, a = a[i] loses the row. The generic transpose routine only; __restrict is ignored."
},
"C74": {
"note": "False parts: a row of a temporary kept with auto refers to the dead temporary (C74_temporary_row_refuted); an expression over locals returned from a function (C74_outlived_refuted); copying or iterating over an expression that contains a row of an array other than the first reads other elements, because the view's copy constructor drops the offset (C74_copy_refuted); f = g overwrites the operands of f (C74_assign_refuted); an operand replaced by a shorter array is read past its end (C74_resized_refuted)."
},
"C75": {
"note": "False for float and under underflow (refuted with witnesses); for double proved with rounding of every operation. Overflow, NaN, infinities and compiler contraction of x*x+y*y are not modelled; the scaled branch of logHypot is covered in C68 on reals only."
},
"C76": {
"note": "trmv and trmm for every mode, size, stride and leading dimension."
},
"C77": {
"note": "trsv and trsm for every mode; exact field arithmetic (rounding not modelled)."
},
"C78": {
"note": "Over any commutative semiring; rounding is not modelled. The CBLAS overloads are outside the model."
},
"C79": {
"note": "Over any commutative semiring; rounding is not modelled. herk and her2k for the modes NoTrans and ConjTrans, the only ones they accept."
},
"C80": {
"note": "IEEE numbers of any precision; unscaled operands (scaled ones are C105); operations as written, without -ffast-math or contraction."
},
"C81": {
"note": "Last element, overflow, one-element case and element count are refuted by witnesses in double."
},
"C82": {
"note": "Overflowing lerp, smoothStep above 1 and isClose of infinities are refuted by witnesses in double."
},
"C83": {
"note": "Half-openness, the float overload and randint for non-zero lower ends are refuted by witnesses; the margin condition is the proved part."
},
"C84": {
"note": "Exact z / z, no overflow for finite z and componentwise accuracy are refuted by witnesses in double."
},
"C85": {
"note": "Generic (header) implementations only; vendor BLAS entry points are not modelled. Exact arithmetic."
},
"C86": {
"note": "Generic (header) implementations only. Exact arithmetic."
},
"C87": {
"note": "Integer rounding, truncation, decimal places, significant figures and multiples are proved with error bounds. Refuted: a decimal literal is not always returned unchanged (0.3 to one place), HALF_EVEN is undefined from 2^64 on (and truncates non-ties), roundSigFig of an infinity never ends."
},
"C88": {
"note": "Elements are real numbers; the contracts of pocketfft and FFTW are trusted. The independence of the back end is false: with FFTW an empty array and arrays of 2^31 to 2^32 numbers execute a null plan, and longer ones are truncated (C88_fftw_refuted)."
},
"C89": {
"note": "Arithmetic is exact (any commutative semiring). The symmetric and Hermitian products are right when each line has its diagonal entry first (upper rows) or last (lower rows), which sorted lines give (C89_sorted); for unsorted lines or a repeated diagonal entry the property is false (C89_unsorted_refuted)."
},
"C90": {
"note": "Exchange of a row-major matrix with a column-major one is wrong unless they are square (C90_geswap_refuted); adding a conjugated matrix divided by a number is not implemented (C90_geraxpy_refuted)."
},
"C91": {
"note": "False in part: trapezoids with a unit diagonal lose a line (C91_trcopy_unit_refuted), scaling a column-major trapezoid is wrong or leaves the memory (C91_trscal_refuted), packed transposition ignores the triangle (C91_tpcopy_transposed_refuted), packed scaling without the diagonal ignores the order (C91_tpscal_unit_refuted), packed sums with a unit diagonal overwrite it (C91_tpaxpby_unit_refuted), other unit-diagonal sums are not implemented."
},
"C92": {
"note": "Transposed copies and sums are right when the sizes are those of A and the band widths those of B; with the sizes of B, as for dense matrices, entries are left out (C92_gbcopy_refuted)."
},
"C93": {
"note": "Correct rounding holds for quotients from 2^-14 to below 65520; subnormal quotients are truncated and quotients from 65536 to 131071 give NaN or wrong values (refuted with witnesses); zero results need the machine to return a small value for an over-long shift."
},
"C94": {
"note": "half(double) is one of the two neighbours and nearest up to 2^-23 relative, but not always nearest (refuted: 1 + 2^-11 - 2^-52); integers up to 65519 are rounded to nearest, 70000 becomes NaN (refuted)."
},
"C95": {
"note": "C95_trsv_residual, C95_trsv_backward and C95_trsv_forward bound the error of a triangular solve; C95_trsv_integers gives exactness; C95_trmv bounds the product. C95_trsv_finite_refuted: a zero on the diagonal (or a quotient that overflows) is not reported, the answer is infinite or NaN."
},
"C96": {
"note": "real and complex vectors, exact arithmetic and float/double; std::pow enters as any square accurate to two units"
},
"C97": {
"note": "z of rotg proved only for |a|<>|b| (false otherwise); rounding of rotg is bounded in C116, overflow refuted"
},
"C98": {
"note": "tbmm scales with the increment ldB in every branch: in row-major order on the right and column-major order on the left it scales the wrong elements and runs beyond B (C98_tbmm_refuted); proved where the increment is right."
},
"C99": {
"note": "Range, monotonicity, special values, accuracy and the range of the derivative hold for every format. C99_open_interval_refuted: unlike the logistic function the computed one reaches 0 and 1 for finite inputs (64 and -2048 in double), where the derivative is 0."
}
}
