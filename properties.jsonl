{"id": "C01", "title": "BitSet single-bit writes behave like a finite set of positions", "statement": "Starting from an empty BitSet<n>, after any sequence of set(i, v) calls with i < n, get(j) returns the value most recently written to position j (false if never written), for every j < n; no other position changes, popCount() equals the number of positions that read true, and any()/none() agree with it.", "quantifier": "all n > 0, all finite histories of single-bit writes, all positions", "why_tests_cant": "There are 2^n states and unboundedly many histories; word-boundary and mask mistakes show only at particular (i, j) pairs.", "anchors": ["librapid/include/librapid/datastructures/bitset.hpp: BitSet::set, BitSet::get, BitSet::popCount, BitSet::any, BitSet::none"]}
{"id": "C02", "title": "BitSet range writes touch exactly the half-open range", "statement": "set(start, end, v) makes every position in [min(start,end), max(start,end)) read v and leaves every other position unchanged.", "quantifier": "all sizes, all contents, all pairs of endpoints within the set", "why_tests_cant": "The code has three loops whose boundaries interact at 64-bit word edges; a suite would have to try every pair of endpoints against every prior content.", "anchors": ["librapid/include/librapid/datastructures/bitset.hpp: BitSet::set(uint64_t, uint64_t, bool)"]}
{"id": "C03", "title": "BitSet shifts move bits by the given distance and drop what falls off", "statement": "For every shift distance s >= 0, (b << s).get(i) is b.get(i - s) when i >= s and false otherwise, and (b >> s).get(i) is b.get(i + s) when i + s < n and false otherwise; a negative distance shifts the other way; and a left shift followed by a right shift by the same distance clears exactly the bits pushed out of the set.", "quantifier": "all sizes, contents and shift distances", "why_tests_cant": "Distances that are multiples of the word size, or that cross several words, are special cases inside the code; sampling cannot cover sizes x distances x contents.", "anchors": ["librapid/include/librapid/datastructures/bitset.hpp: BitSet::operator<<=, BitSet::operator>>="]}
{"id": "C04", "title": "BitSet complement and all() describe exactly the n bits of the set", "statement": "(~b).get(i) is the negation of b.get(i) for every i < n, ~~b == b, b.popCount() + (~b).popCount() == n, and all() is true exactly when every position reads true.", "quantifier": "all sizes (including multiples of 64) and all contents", "why_tests_cant": "The result depends on the size modulo 64, on padding bits that no accessor shows, and on all contents.", "anchors": ["librapid/include/librapid/datastructures/bitset.hpp: BitSet::operator~, BitSet::all, BitSet::popCount, highMask"]}
{"id": "C05", "title": "BitSet first()/last() find the lowest and highest set bit", "statement": "first() is the smallest position that reads true, or n if there is none; last() is the largest position that reads true, and is well defined for the empty set.", "quantifier": "all sizes and contents, including the empty set", "why_tests_cant": "Needs every content; the empty case runs a loop whose counter is unsigned.", "anchors": ["librapid/include/librapid/datastructures/bitset.hpp: BitSet::first, BitSet::last"]}
{"id": "C06", "title": "BitSet logical operators act position by position", "statement": "For equal-sized sets, (a | b), (a & b), (a ^ b) read as the disjunction, conjunction and exclusive or of a and b at every position; with operands of different sizes positions missing from the smaller operand count as false and no position outside the set ever becomes set.", "quantifier": "all pairs of sizes and contents", "why_tests_cant": "Pairs of sizes with different word counts and partial last words are too many to enumerate.", "anchors": ["librapid/include/librapid/datastructures/bitset.hpp: BitSet::operator|=, operator&=, operator^="]}
{"id": "C07", "title": "BitSet text round trip", "statement": "str() has exactly n characters, most significant position first, and constructing a BitSet<n> from that text gives back an equal set; a character other than 0/1 is rejected.", "quantifier": "all sizes and contents", "why_tests_cant": "A round trip over all 2^n contents.", "anchors": ["librapid/include/librapid/datastructures/bitset.hpp: BitSet(const std::string&), BitSet::str, operator=="]}
{"id": "C08", "title": "Set behaves like a mathematical set under any history", "statement": "A Set built from any list, then changed by any sequence of insert / discard / remove calls, contains exactly the elements a mathematical set would, each once and in ascending order; contains(x) is true exactly for members, size() is the number of distinct elements, and remove of an absent element is reported.", "quantifier": "all initial lists (with duplicates, unsorted), all histories, all probes", "why_tests_cant": "Binary search and in-place insertion go wrong only for particular positions/lengths; histories are unbounded.", "anchors": ["librapid/include/librapid/datastructures/set.hpp: Set, insert, discard, remove, contains, operator[], size"]}
{"id": "C09", "title": "Set union, intersection and difference", "statement": "The union, intersection and difference of two Sets contain exactly the elements of the corresponding mathematical operation and are again sorted without duplicates.", "quantifier": "all pairs of Sets", "why_tests_cant": "Merge loops fail for particular interleavings and tails of two unbounded sequences.", "anchors": ["librapid/include/librapid/datastructures/set.hpp: operator|, operator&, operator-"]}
{"id": "C10", "title": "Set symmetric difference", "statement": "a ^ b contains exactly the elements that are in one of a and b but not in both.", "quantifier": "all pairs of Sets", "why_tests_cant": "Same merge loop issue: the tails matter for all pairs of lengths.", "anchors": ["librapid/include/librapid/datastructures/set.hpp: operator^"]}
{"id": "C11", "title": "Row-major addressing is a bijection", "statement": "For every shape with non-zero extents, the offset computed for a multi-index from the strides equals the row-major position, lies in [0, size()), and every position in that range is reached by exactly one in-range multi-index; the strides of a zero-dimensional shape are well defined.", "quantifier": "all shapes of up to the maximum number of dimensions, all multi-indices", "why_tests_cant": "The space of shapes and indices is unbounded and a single colliding pair is enough to corrupt data.", "anchors": ["librapid/include/librapid/array/strideTools.hpp: Stride(const Shape&)", "librapid/include/librapid/array/shape.hpp: Shape::size", "librapid/include/librapid/array/arrayContainer.hpp: operator()"]}
{"id": "C12", "title": "Array element access reads and writes exactly the addressed element", "statement": "array(i0,...,ik) = v followed by array(j0,...,jk) reads v when the indices are equal and the old value otherwise; array(i0,..,ik) names the same element as array[i0]..[ik]; any out-of-range index or wrong number of indices is reported when assertions are enabled.", "quantifier": "all shapes, all index tuples, all contents, assertions on", "why_tests_cant": "Needs every pair of index tuples for every shape.", "anchors": ["librapid/include/librapid/array/arrayContainer.hpp: operator()(Indices...), operator[]", "librapid/include/librapid/array/generalArrayView.hpp: operator[], get"]}
{"id": "C13", "title": "Shape conversions preserve extents and element count", "statement": "Converting between Shape, MatrixShape and VectorShape preserves the extents (up to the documented padding with 1) and size(); equality between any two of them holds exactly when their extents agree; a shape with too many dimensions is rejected; size() is the product of the extents.", "quantifier": "all shapes, all 32-bit extents", "why_tests_cant": "Products of 32-bit extents overflow only for huge values that no test allocates; there are 9 type pairs.", "anchors": ["librapid/include/librapid/array/shape.hpp: Shape, MatrixShape, VectorShape, operator==, size"]}
{"id": "C14", "title": "Subshape extracts the addressed dimensions", "statement": "subshape(a, b) of a shape is the shape with extents a..b-1 of the original, with negative bounds meaning 'from the start' / 'to the end', for every shape type.", "quantifier": "all shapes and bounds", "why_tests_cant": "All shapes x bounds, three implementations.", "anchors": ["librapid/include/librapid/array/shape.hpp: Shape::subshape, MatrixShape::subshape, VectorShape::subshape"]}
{"id": "C15", "title": "shapesMatch accepts exactly lists of equal shapes", "statement": "shapesMatch(s1,...,sn) is true if and only if all the given shapes are equal.", "quantifier": "all n >= 1 and all shapes", "why_tests_cant": "Variadic: unbounded number of arguments and any position of the odd one out.", "anchors": ["librapid/include/librapid/array/shape.hpp: shapesMatch"]}
{"id": "C16", "title": "Views address the right part of the parent, including copies of views", "statement": "Indexing an array or view with [i] gives a view whose element (j1..jk) is element (i, j1..jk) of the parent, for any nesting depth; writing through the view changes exactly that element of the parent; a copy of a view denotes the same elements as the view it was copied from; iterating over an array row by row, and over each row element by element, visits all elements in row-major order.", "quantifier": "all shapes, nesting depths, indices and numbers of copies", "why_tests_cant": "Offsets accumulate over an arbitrary number of indexing and copy steps.", "anchors": ["librapid/include/librapid/array/generalArrayView.hpp: operator[], GeneralArrayView(const GeneralArrayView&), begin, end, scalar", "librapid/include/librapid/array/arrayIterator.hpp"]}
{"id": "C17", "title": "Strided copies visit every element once, in order", "statement": "Assigning an array or view to a view of the same shape, and evaluating a view into a new array, copies element (i1..ik) to element (i1..ik) for every multi-index, and writes nothing else.", "quantifier": "all shapes, offsets, strides and contents", "why_tests_cant": "The odometer loop carries over a data-dependent number of dimensions.", "anchors": ["librapid/include/librapid/array/generalArrayView.hpp: operator=, eval, scalar"]}
{"id": "C18", "title": "Evaluating a lazy expression computes every element once, whatever the vector width and thread schedule", "statement": "Assigning an elementwise expression to an array sets element i to the scalar expression of the operands' elements i, for every i < size, for every SIMD packet width (including sizes that are not a multiple of it), for serial and parallel evaluation and for every order in which the threads run the loop iterations; nothing outside the array is written.", "quantifier": "all expressions, sizes, packet widths, contents, schedules; dynamic and fixed-size storage", "why_tests_cant": "Thread schedules and width/size remainders cannot be enumerated by tests.", "anchors": ["librapid/include/librapid/array/assignOps.hpp: assign, assignParallel", "librapid/include/librapid/array/function.hpp: Function::packet, Function::scalar", "librapid/include/librapid/array/arrayContainer.hpp: operator="]}
{"id": "C19", "title": "Assigning an expression gives the destination the expression's shape, or fails leaving it intact", "statement": "After array = expression succeeds, array.shape() equals the expression's shape and its storage has that many elements; if the assignment is rejected the destination still holds its previous shape and elements.", "quantifier": "all destination states and expressions, with and without assertions", "why_tests_cant": "Failure atomicity concerns every rejected combination of shapes and the hidden state left behind.", "anchors": ["librapid/include/librapid/array/arrayContainer.hpp: assign, operator=(const detail::Function&), operator=(Transpose), operator=(ArrayMultiply)"]}
{"id": "C20", "title": "Elementwise functions compute the function they are named after", "statement": "For each elementwise function f exported for arrays (sin ... atanh, exp, exp2, exp10, log.., sqrt, cbrt, floor, ceil, abs, arithmetic and comparison operators), element i of f(a) is the scalar f applied to element i of a.", "quantifier": "all exported functions, all arguments", "why_tests_cant": "Must hold for all arguments; several functions agree at commonly tested points such as 0.", "anchors": ["librapid/include/librapid/array/operations.hpp: LIBRAPID_UNARY_FUNCTOR, LIBRAPID_BINARY_FUNCTOR"]}
{"id": "C21", "title": "Storage lifetime is memory safe under any history", "statement": "In any sequence of constructing, copying, moving, assigning, resizing, indexing and destroying Storage objects, no block is freed twice, no freed block or null pointer is accessed, and once every object is destroyed no allocated block is left.", "quantifier": "all finite histories over any number of Storage objects", "why_tests_cant": "Leaks and double frees depend on the history, e.g. assigning to a moved-from object.", "anchors": ["librapid/include/librapid/array/storage.hpp: Storage(const Storage&), Storage(Storage&&), operator=, ~Storage, resize, copy"]}
{"id": "C22", "title": "Copies of Storage are equal and independent", "statement": "After copy construction, copy assignment or copy(), the new Storage has the same size and elements as the source, and later writes to either one never change the other.", "quantifier": "all sizes (including zero), contents and later writes", "why_tests_cant": "Aliasing only shows with later writes; zero-sized sources are a separate path.", "anchors": ["librapid/include/librapid/array/storage.hpp: Storage(const Storage&), operator=(const Storage&), Storage::copy, FixedStorage::copy"]}
{"id": "C23", "title": "Resizing storage preserves the prefix", "statement": "resize(n) keeps the first min(old, n) elements and the size becomes n; resize(n, 0) sets the size to n; a non-owning storage refuses to change size.", "quantifier": "all sizes and contents", "why_tests_cant": "All size pairs and contents.", "anchors": ["librapid/include/librapid/array/storage.hpp: Storage::resize"]}
{"id": "C24", "title": "Heap BitSets can be copied and assigned safely", "statement": "Copying or assigning heap-allocated BitSets gives independent equal sets and destroys each block exactly once.", "quantifier": "all finite histories of construction, copy, assignment, mutation and destruction", "why_tests_cant": "Ownership errors depend on histories.", "anchors": ["librapid/include/librapid/datastructures/bitset.hpp: BitSet(const BitSet&), operator=, ~BitSet"]}
{"id": "C25", "title": "Building an array from nested lists", "statement": "fromData of nested lists gives the array whose shape is the list of nesting lengths and whose element (i1..ik) is the (i1..ik) entry of the lists; empty or ragged input is rejected.", "quantifier": "all nesting depths, lengths and entries", "why_tests_cant": "Ragged inputs can differ at any depth and position.", "anchors": ["librapid/include/librapid/array/arrayFromData.hpp: fromData"]}
{"id": "C26", "title": "arange, ordered, linspace, zeros and ones produce the documented sequences", "statement": "arange(start, stop, step) holds start + i*step for i = 0.. and covers [start, stop) for positive and negative steps; linspace(a, b, n, includeEnd) holds n equally spaced values, starting at a and ending at b if includeEnd; zeros/ones/ordered fill every element.", "quantifier": "all admissible parameters, including negative steps and n = 1", "why_tests_cant": "Index arithmetic mixes signed parameters and unsigned counters; needs all parameters.", "anchors": ["librapid/include/librapid/array/pseudoConstructors.hpp: arange, linspace, zeros, ones, ordered"]}
{"id": "C27", "title": "Comma initialisation writes the values in order", "statement": "array << v1, v2, ..., vn sets the first n elements in row-major order and leaves the others unchanged; supplying too many values is reported.", "quantifier": "all arrays and all value lists", "why_tests_cant": "All lengths on both sides.", "anchors": ["librapid/include/librapid/array/commaInitializer.hpp: CommaInitializer"]}
{"id": "C28", "title": "Transpose produces element (j, i) at (i, j)", "statement": "For a matrix of any size, transpose(m) has shape (cols, rows) and element (i, j) equal to alpha times element (j, i) of m, for every blocking factor, element type, vector instruction set and thread schedule.", "quantifier": "all matrix sizes, contents, scale factors, block sizes, schedules and the float/double SIMD kernels", "why_tests_cant": "Sizes with remainders modulo the block and non-square matrices follow different paths.", "anchors": ["librapid/include/librapid/array/linalg/transpose.hpp: transposeImpl, kernels", "librapid/include/librapid/opencl/kernels/transpose.cl"]}
{"id": "C29", "title": "Transposing twice is the identity and explicit axes are honoured", "statement": "transpose(transpose(m)) == m, and transpose(a, axes) permutes the dimensions in the given order or is rejected.", "quantifier": "all matrices; all axis permutations", "why_tests_cant": "All permutations and shapes.", "anchors": ["librapid/include/librapid/array/linalg/transpose.hpp: Transpose, transpose()"]}
{"id": "C30", "title": "Matrix-matrix product", "statement": "dot(A, B), where either operand may be lazily transposed or scaled, is the matrix whose (i, j) element is the scaled sum over k of op(A)(i,k) * op(B)(k,j), with shape (rows of op(A), columns of op(B)); incompatible inner extents are rejected.", "quantifier": "all shapes, contents, transposition flags and scale factors", "why_tests_cant": "All shape triples x 4 flag combinations; wrong leading dimensions are invisible on square matrices.", "anchors": ["librapid/include/librapid/array/linalg/arrayMultiply.hpp: ArrayMultiply, applyTo", "librapid/include/librapid/array/linalg/level3/gemm.hpp", "librapid/cxxblas/level3/gemm.tcc: gemm_generic"]}
{"id": "C31", "title": "Matrix-vector product", "statement": "dot(A, x) with A a matrix (possibly lazily transposed) and x a vector is the vector whose i-th element is the sum over k of op(A)(i,k)*x(k), and dot(x, A) is the row-vector product.", "quantifier": "all shapes, contents, flags", "why_tests_cant": "Only non-square transposed operands show a row/column confusion.", "anchors": ["librapid/include/librapid/array/linalg/arrayMultiply.hpp: applyTo", "librapid/include/librapid/array/linalg/level2/gemv.hpp", "librapid/cxxblas/level2/gemv.tcc: gemv_generic"]}
{"id": "C32", "title": "Lazy transposes and scale factors are folded into products without changing the result", "statement": "dot of arbitrarily nested scaled/transposed operands equals the product of the evaluated operands: transposition flags cancel in pairs and scale factors multiply.", "quantifier": "all nestings of transpose and scalar multiplication around both operands", "why_tests_cant": "Unbounded nesting depth.", "anchors": ["librapid/include/librapid/array/linalg/arrayMultiply.hpp: dotHelper, dot", "librapid/include/librapid/array/linalg/transpose.hpp: operator*"]}
{"id": "C33", "title": "The GPU fallback product kernels compute the product", "statement": "The OpenCL/CUDA fallback gemm and gemv kernels leave alpha*op(A)*op(B) + beta*C in the output for every launch, read only inside the operands, and agree with the CPU path.", "quantifier": "all shapes, flags, contents, thread interleavings between barriers", "why_tests_cant": "Tile remainders and transposition flags in all combinations; needs a GPU.", "anchors": ["librapid/include/librapid/array/linalg/level3/gemm.cl", "librapid/include/librapid/array/linalg/level3/gemm.cu", "librapid/include/librapid/array/linalg/level2/gemv.cl", "librapid/include/librapid/array/linalg/level2/gemv.cu"]}
{"id": "C34", "title": "geam adds (transposed) matrices", "statement": "geam(transA, transB, alpha, a, beta, b, c) leaves alpha*op(a) + beta*op(b) in c.", "quantifier": "all matrices, flags, factors", "why_tests_cant": "All flags and shapes.", "anchors": ["librapid/include/librapid/array/linalg/level3/geam.hpp: geam"]}
{"id": "C35", "title": "half to float to half is the identity", "statement": "Converting any half to float and back returns the same bit pattern (any NaN stays a NaN), and the float denotes exactly the same real number.", "quantifier": "all 65536 half values", "why_tests_cant": "Exhaustive testing is feasible only on the target; the theorem also settles exact value preservation and the absence of undefined shifts.", "anchors": ["librapid/include/librapid/math/half.hpp: floatToHalf, halfToFloat"]}
{"id": "C36", "title": "float to half rounds to nearest", "statement": "Converting any float to half gives the nearest representable half (ties to even), preserves sign, infinities and NaN, overflows to infinity, and uses no undefined operation.", "quantifier": "all 2^32 floats", "why_tests_cant": "Rounding errors appear at isolated bit patterns, and undefined shifts are invisible on a given machine.", "anchors": ["librapid/include/librapid/math/half.hpp: floatToHalf"]}
{"id": "C37", "title": "half comparison is the numeric order", "statement": "For non-NaN halfs a < b, a <= b, a > b, a >= b, a == b agree with comparing the represented numbers (so -0 == +0), and every comparison with NaN except != is false.", "quantifier": "all pairs of half values", "why_tests_cant": "2^32 pairs and special values.", "anchors": ["librapid/include/librapid/math/half.hpp: half::operator<, operator==, operator>, operator<=, operator>="]}
{"id": "C38", "title": "half arithmetic special values and algebraic laws", "statement": "halfAdd and halfMul are commutative; x + 0 == x, x * 1 == x, x - x == 0 for finite x; infinities and NaN propagate as in IEEE 754; ++/-- change the object by one and the post forms return the old value; the named constants have the value they are named after.", "quantifier": "all pairs of half values", "why_tests_cant": "2^32 pairs; special values need exact bit patterns.", "anchors": ["librapid/include/librapid/math/half.hpp: halfAdd, halfMul, halfNeg, halfSub, half::operator++, half constants"]}
{"id": "C39", "title": "Rounding functions", "statement": "round(x, dp, mode) returns the value selected by the mode's name (up, down, truncate, half-even, nearest); roundTo(x, v) is a multiple of v nearest to x; roundUpTo(x, v) is the least multiple of v that is >= x; roundSigFig(x, n) keeps n significant figures.", "quantifier": "all values (positive, negative, integer and real), all modes and steps", "why_tests_cant": "Infinitely many inputs; ties, negative numbers and integers follow different paths.", "anchors": ["librapid/include/librapid/math/round.hpp: round, roundTo, roundUpTo, roundSigFig"]}
{"id": "C40", "title": "clamp, lerp, smoothStep, map and isClose", "statement": "clamp(x, a, b) lies between the two bounds and equals x when x does, also with the bounds given in the wrong order as documented; lerp(t, a, b) = a + t*(b-a); smoothStep is monotone from 0 to 1 with the documented polynomial; map sends the source interval to the target interval; isClose is symmetric and reflexive.", "quantifier": "all real arguments", "why_tests_cant": "Infinitely many inputs.", "anchors": ["librapid/include/librapid/math/utilityFunctions.hpp: clamp, lerp, smoothStep, isClose", "librapid/include/librapid/math/coreMath.hpp: map, min, max, abs"]}
{"id": "C41", "title": "pow10 returns the requested power of ten", "statement": "fastmath::pow10(e) equals 10^e for every integer e (up to rounding).", "quantifier": "all 64-bit exponents", "why_tests_cant": "A table lookup has one entry per exponent; a single wrong entry survives spot checks.", "anchors": ["librapid/src/fastMath.cpp: pow10"]}
{"id": "C42", "title": "randint stays within its bounds", "statement": "randint(lo, hi) returns an integer n with lo <= n <= hi, and every such n is possible, whatever value the underlying generator returns.", "quantifier": "all lo <= hi (including negative) and every generator output in [0, 1)", "why_tests_cant": "The failing generator outputs may have tiny probability.", "anchors": ["librapid/include/librapid/math/random.hpp: randint, random"]}
{"id": "C43", "title": "Seeding makes the random stream reproducible", "statement": "After setSeed(s), the values returned by random / randint / randomGaussian calls depend only on s and on the calls made since, not on what was called before the seeding.", "quantifier": "all seeds and all call histories (any mix of scalar types) before and after seeding", "why_tests_cant": "Hidden static state per template instantiation; histories are unbounded.", "anchors": ["librapid/include/librapid/math/random.hpp: random, randomGaussian", "librapid/src/global.cpp: setSeed"]}
{"id": "C44", "title": "Dual numbers compute derivatives", "statement": "Evaluating any expression built from the Dual operators and functions on Dual(x, 1) gives the value of the expression at x and its derivative at x, wherever all the sub-expressions are differentiable; compound assignment operators agree with the binary operators.", "quantifier": "all expressions and all points in their domain", "why_tests_cant": "Infinitely many expressions and points.", "anchors": ["librapid/include/librapid/autodiff/dual.hpp: Dual, operators, sin..atanh, exp..cbrt, pow"]}
{"id": "C45", "title": "Sigmoid backward is the derivative of Sigmoid forward", "statement": "backward(forward(x)) equals the derivative of forward at x, forward is in (0,1) and increasing, and the chain through a layer multiplies derivatives.", "quantifier": "all real x", "why_tests_cant": "Infinitely many inputs.", "anchors": ["librapid/include/librapid/ml/activations.hpp: Sigmoid::f, Sigmoid::df"]}
{"id": "C46", "title": "Complex arithmetic is field arithmetic", "statement": "+, -, *, / on Complex numbers and scalars (and the compound forms, also when the right operand is a component of the left one) satisfy the field laws, (z/w)*w == z for w != 0, and assignment from another Complex type copies both components.", "quantifier": "all complex numbers over exact arithmetic; all aliasing patterns", "why_tests_cant": "Infinitely many inputs; aliasing is rarely tested.", "anchors": ["librapid/include/librapid/math/complex.hpp: Complex::operator=, _add, _sub, _mul, _div, operator*=, operator/="]}
{"id": "C47", "title": "Complex square root", "statement": "sqrt(z)^2 == z with non-negative real part, for every z.", "quantifier": "all complex numbers over exact arithmetic", "why_tests_cant": "Scaling branches depend on magnitude; infinitely many inputs.", "anchors": ["librapid/include/librapid/math/complex.hpp: sqrt, _fabs"]}
{"id": "C48", "title": "Complex elementary functions satisfy their defining identities", "statement": "exp(a+b) = exp(a)exp(b), cosh^2 - sinh^2 = 1, sin/cos addition theorems, tan = sin/cos, polar/abs/arg/conj/norm agree.", "quantifier": "all complex numbers over exact arithmetic", "why_tests_cant": "Infinitely many inputs.", "anchors": ["librapid/include/librapid/math/complex.hpp: exp, sin, cos, tan, sinh, cosh, tanh, polar, norm, conj"]}
{"id": "C49", "title": "Fixed-size Vector arithmetic and reductions", "statement": "Elementwise operators on Vector<T, N> give the elementwise result and sum, dot, mag2 equal the mathematical reductions over exactly N elements, for SIMD and scalar storage; cross(a,b) is orthogonal to a and b.", "quantifier": "all N, packet widths, contents, and histories of construction", "why_tests_cant": "Padding lanes are invisible to element access; their content depends on the history.", "anchors": ["librapid/include/librapid/math/vectorImpl.hpp: Vector, SimdVectorStorage, sum, sum2, dot, cross"]}
{"id": "C50", "title": "Serialisation round trip and type check", "statement": "Deserialising what was serialised gives back the same object, and data of another type or truncated data is rejected.", "quantifier": "all object byte patterns, type identities and buffer lengths", "why_tests_cant": "All byte strings.", "anchors": ["librapid/include/librapid/utils/serialize.hpp: Serializer, serialize, deserialize"]}
{"id": "C51", "title": "formatTime shows the time it is given", "statement": "The number and unit printed by formatTime denote the duration passed in, with the number below the next unit's size.", "quantifier": "all durations and source units", "why_tests_cant": "All durations.", "anchors": ["librapid/include/librapid/utils/time.hpp: formatTime"]}
{"id": "C52", "title": "Timer averages the time per iteration", "statement": "For any sequence of start/stop/iteration-check calls with a monotone clock, elapsed() is the time between start and stop (or now), and the loop 'while (timer.isRunning())' stops after the first check past the target time.", "quantifier": "all clock readings and call histories", "why_tests_cant": "Depends on clock readings.", "anchors": ["librapid/include/librapid/utils/time.hpp: Timer"]}
{"id": "C53", "title": "The device random generator does not repeat", "statement": "Successive draws of the device-side MT19937 generator follow the MT19937 recurrence: the incremental step function yields the same stream as the batch step function in the same file.", "quantifier": "all seeds and numbers of draws", "why_tests_cant": "The deviation shows only from the 624th draw or the first raw word on; needs a GPU.", "anchors": ["librapid/include/librapid/opencl/kernels/fill.cl: _mt19937_uint, _mt19937_loop_uint, mt19937_seed", "librapid/include/librapid/cuda/kernels/fill.cu"]}
{"id": "C54", "title": "Map wrappers", "statement": "contains(key), contains(key, value), get(key, default) and operator[] on Map / UnorderedMap agree with a mathematical finite map under any history of insertions and erasures.", "quantifier": "all histories, keys and values", "why_tests_cant": "Unbounded histories.", "anchors": ["librapid/include/librapid/datastructures/map.hpp: Map, UnorderedMap"]}
{"id": "C55", "title": "Strided BLAS level-1 routines", "statement": "copy, swap, scal, axpy, dot, asum and iamax act on exactly the n elements addressed by the increment (forwards or backwards) and compute the stated result.", "quantifier": "all n, increments (including negative and zero) and contents", "why_tests_cant": "All increments and lengths.", "anchors": ["librapid/cxxblas/level1/*.tcc"]}
{"id": "C56", "title": "Array formatting shows every element in its place", "statement": "The text form of an array contains each element exactly once, in row-major order, with nesting brackets that mirror the shape.", "quantifier": "all shapes and contents", "why_tests_cant": "All shapes.", "anchors": ["librapid/include/librapid/array/generalArrayViewToString.hpp"]}
{"id": "C57", "title": "The bundled BLAS gemm honours every operation mode", "statement": "gemm(order, opA, opB, m, n, k, alpha, A, ldA, B, ldB, beta, C, ldC) leaves alpha*op(A)*op(B) + beta*C in the m x n block of C, for both storage orders, the four modes (as is, conjugated, transposed, conjugate-transposed) of each operand and any leading dimensions, and touches nothing outside that block.", "quantifier": "all orders, mode pairs, shapes, leading dimensions, factors, contents, thread interleavings", "why_tests_cant": "2 x 16 mode combinations times all shapes and leading dimensions; conjugation bugs are invisible on real elements.", "anchors": ["librapid/cxxblas/level3/gemm.tcc: gemm_generic, gemm_generic_parallel", "librapid/cxxblas/level2/gemv.tcc: gemv_generic", "librapid/cxxblas/level1extensions/gescal.tcc: gescal_init"]}
{"id": "C58", "title": "Format specifications are used as given", "statement": "Formatting an array with a format specification formats each element with exactly that specification and touches no other memory, however long the specification is.", "quantifier": "all format specifications", "why_tests_cant": "All lengths; the failure is a buffer overflow that a test may survive.", "anchors": ["librapid/include/librapid/array/arrayTypeDef.hpp ARRAY_TYPE_FMT_IML", "librapid/include/librapid/array/generalArrayViewToString.hpp alignment"]}
{"id": "C59", "title": "OpenCL device buffers live exactly as long as something refers to them", "statement": "For every program of constructions, copies, moves, assignments, buffer sharing, resizes, element references, reads, writes and destructions of OpenCL storages that reads no uninitialised size and no element that does not exist, there is no undefined behaviour, the device buffers allocated at any moment are exactly those that some live storage or element reference refers to, and when all are gone none is left.", "quantifier": "all histories, sizes, contents, aliasing patterns, assertion settings", "why_tests_cant": "All histories and sharing patterns; leaks and dangling device buffers are invisible to unit tests, and the test machines have no OpenCL device.", "anchors": ["librapid/include/librapid/opencl/openclStorage.hpp: OpenCLStorage, OpenCLRef"]}
{"id": "C60", "title": "OpenCL arrays are values and element references follow their element", "statement": "Copying, assigning, moving and resizing OpenCL storages has value semantics: the target gets the source's elements, a resize keeps the common prefix, and no other storage changes. A reference obtained by indexing denotes that element, for reads and writes, until the storage or the reference is rebound.", "quantifier": "all histories, sizes, indices, contents, assertion settings", "why_tests_cant": "All histories and aliasing patterns; needs a device.", "anchors": ["librapid/include/librapid/opencl/openclStorage.hpp: OpenCLStorage, OpenCLRef"]}
{"id": "C61", "title": "CUDA device memory is neither leaked nor misused", "statement": "For every program of constructions, copies, moves, assignments, resizes, in-range reads and writes, and destructions of CUDA storages there is no undefined behaviour (no double free, no use after free, no invalid copy), and when all storages are gone no device memory is left allocated.", "quantifier": "all histories, sizes, contents, assertion settings", "why_tests_cant": "All histories; leaks and invalid copies are invisible to unit tests, and need a device.", "anchors": ["librapid/include/librapid/cuda/cudaStorage.hpp: CudaStorage, CudaRef, cudaSafeAllocate, cudaSafeDeallocate"]}
{"id": "C62", "title": "CUDA arrays are values", "statement": "Copying, assigning, moving and resizing CUDA storages has value semantics: the target gets the source's elements, a resize keeps the common prefix, no other storage changes, an operation that throws changes nothing, and indexing gives the element or is reported.", "quantifier": "all histories, sizes, indices, contents, assertion settings", "why_tests_cant": "All histories and index values; needs a device.", "anchors": ["librapid/include/librapid/cuda/cudaStorage.hpp: CudaStorage, CudaRef"]}
{"id":"C63","title":"A GPU kernel launch computes every element exactly once","statement":"Launching an elementwise kernel over n elements (CUDA: 1 <= n <= 2^32; OpenCL: 1 <= n <= 2^31) terminates without touching memory outside its buffers and leaves destination element i equal to the function of the original argument elements i, for every i < n, whatever order the device runs the threads in, even when the destination is also an argument; everything else in device memory is unchanged.","quantifier":"every element count in range, kernel function of at most two arguments, mixture of array and scalar arguments, aliasing, memory contents and interleaving of the threads' reads and writes","why_tests_cant":"the launch geometry changes at 512 elements and rounds up to whole blocks; the order of threads is chosen by the device and a test sees only a few orders","anchors":["librapid/include/librapid/cuda/cudaKernelProcesor.hpp: runKernelString","librapid/include/librapid/opencl/openclKernelProcessor.hpp: runLinearKernel","librapid/include/librapid/cuda/kernels/arithmetic.cu","librapid/include/librapid/opencl/kernels/arithmetic.cl"]}
{"id":"C64","title":"Assigning an expression to a device array gives the elementwise value","statement":"After d = e, where e is any tree of unary and binary elementwise functions over device arrays and scalars, element i of d is the value of e at element i in the memory before the assignment, also when d occurs in e one or more times, and every other array is unchanged.  CUDA: any element types, packet widths dividing 32 (the padding of an array may be overwritten); OpenCL: arrays and intermediate results of one element type.","quantifier":"every expression tree, alias pattern, array size in range, packet width dividing 32, contents and schedule of every kernel launched","why_tests_cant":"expression trees are unbounded and evaluated through a temporary per node; the packet count rounding depends on size and width; schedules are not under the test's control","anchors":["librapid/include/librapid/array/assignOps.hpp: openCLTupleEvaluator, cudaTupleEvaluator, assign","librapid/include/librapid/array/cudaStorage.hpp: allocation padding"]}
{"id":"C65","title":"Device evaluation works for every size and mixture of types","statement":"Assigning an expression to a device array also works for empty arrays, for arrays of more than 2^32 elements, for every configurable packet width, and for operands of different element types.","quantifier":"every array size, packet width 1 to 4 and assignment of element types to the operands","why_tests_cant":"arrays of 2^32 elements do not fit in a test; the type and width combinations are compile-time configurations","anchors":["librapid/include/librapid/array/assignOps.hpp: cudaTupleEvaluator, openCLTupleEvaluator","librapid/include/librapid/cuda/kernels/arithmetic.cu: kernelIndex","librapid/include/librapid/opencl/openclKernelProcessor.hpp: runLinearKernel"]}
{"id":"C66","title":"The text of a multi-precision float denotes its value","statement":"str(x) of an mpf value always succeeds and yields [-]digits.digits with at least one digit before the point, which read in the given base is exactly the value that the digit string and exponent stand for; so two values with the same text are equal.","quantifier":"every sign, digit string (including the empty one of zero), exponent of either sign and any size, and base >= 2","why_tests_cant":"the position of the point relative to the digits has unboundedly many cases; tests sample a few magnitudes","anchors":["librapid/src/multiprecToString.cpp: str(const mpf &, int64_t, int)","librapid/src/multiprecCasting.cpp: toMpfr"]}
{"id":"C67","title":"The OpenCL device in use passed its self-test and is the best one","statement":"By default configureOpenCL selects, among all devices of all platforms that pass the self-test, the first with the highest compute score; with ask it selects the device at the first valid index entered; with no working device and assertions on it throws.","quantifier":"every list of platforms and devices with any reported properties; every sequence of numbers typed","why_tests_cant":"the set of installed devices is fixed on a test machine","anchors":["librapid/src/openclConfigure.cpp: updateOpenCLDevices, openclDeviceCompute, findFastestDevice, configureOpenCL"]}
{"id":"C68","title":"The complex logarithm inverts the exponential","statement":"exp(log(z)) = z for every z other than 0, the imaginary part of log(z) lies in [-pi, pi] with the sign of a zero imaginary part choosing the side of the branch cut, and log(exp(z)) = z on the principal strip; log to a real or complex base, log2 and log10 give the exponent that restores z; the scaled evaluation of ln|z| for floats is off by no more than a stated bound.","quantifier":"every nonzero complex number, both signs of zero, every base other than 0 and 1, every result of the bit-splitting helper","why_tests_cant":"the evaluation has seven branches selected by magnitude; tests sample points, not the boundaries between branches","anchors":["librapid/include/librapid/math/complex.hpp: log, log2, log10, _logAbs, detail::algorithm::logHypot, logP1, normMinusOne"]}
{"id":"C69","title":"Complex powers obey the power laws","statement":"pow(z, w) = exp(w log z) whichever overload and branch computes it; natural powers are repeated products; the k-th power of pow(z, 1/k) is z; exponents add; cbrt(z) cubed is z; exp2 and exp10 are exponentials; 0 to a positive power is 0.","quantifier":"every nonzero base, every exponent, every natural k, both signs of zero","why_tests_cant":"the special cases for real operands and signed zeros must agree with the general formula everywhere","anchors":["librapid/include/librapid/math/complex.hpp: pow, _pow, cbrt, exp2, exp10"]}
{"id":"C70","title":"Inverse trigonometric and hyperbolic functions invert and stay in the principal range","statement":"cos(acos z), sin(asin z), sinh(asinh z), cosh(acosh z), tanh(atanh z) and tan(atan z) give z back, as do the reciprocal functions; each result lies in the principal range of its function; for arguments so large that intermediate values are rescaled, one component is within 1/(2 arcBig^2) (2/arcBig for atan and atanh) of an exact value.","quantifier":"every finite complex number except the poles, both signs of zero components, types with and without signed zeros","why_tests_cant":"branch cuts and the rescaled branches near overflow are measure-zero or unreachable for sampled tests","anchors":["librapid/include/librapid/math/complex.hpp: acos, acosh, asinh, asin, atanh, atan, acsc, asec, acot","librapid/include/librapid/utils/memUtils.hpp: copySign"]}
{"id": "C71", "title": "Random fills stay in range", "statement": "After fillRandom(a, lower, upper) with lower < upper every element of the array lies in [lower, upper) (integral types: truncated), no memory outside the array is touched, whatever the size, the seeds, the number of threads and the order in which they run; on the CPU and on GPUs.", "quantifier": "all sizes, bounds, seeds, previous contents, thread counts and interleavings", "why_tests_cant": "The numbers are random and the kernels run concurrently: a test sees a few draws of a few schedules; the bound fails only for one draw in 2^53.", "anchors": ["librapid/include/librapid/array/fill.hpp: fillRandom", "librapid/include/librapid/opencl/kernels/fill.cl: fillRandom_*", "librapid/include/librapid/cuda/kernels/fill.cu: fillRandom"]}
{"id": "C72", "title": "Random fills are reproducible and do not repeat themselves", "statement": "After setSeed(s) the elements written by fillRandom depend only on s, the size and the bounds, not on earlier calls or on thread scheduling; and different elements come from different states of the generator.", "quantifier": "all seeds, earlier histories, sizes, generators and schedules", "why_tests_cant": "It compares all histories and all interleavings of the same fill; a run on one machine shows one schedule.", "anchors": ["librapid/include/librapid/array/fill.hpp: fillRandom", "librapid/include/librapid/opencl/kernels/fill.cl: fillRandom_*", "librapid/include/librapid/cuda/kernels/fill.cu: fillRandom", "librapid/src/global.cpp: setSeed"]}
{"id": "C73", "title": "Assigning an expression that mentions the destination uses its old contents", "statement": "In dst = expr, dst op= expr and dst[i].. = expr the destination may occur in the expression; afterwards every element of the destination is the value the expression had before the assignment, nothing else changes, and no destroyed or foreign memory is read. This covers elementwise expressions, sub-arrays, transposes, views and matrix products.", "quantifier": "all expressions, shapes, contents, block sizes, nesting depths and iteration orders", "why_tests_cant": "Whether an overlap is harmless depends on the expression and on the order in which elements are written; tests fix both.", "anchors": ["librapid/include/librapid/array/arrayContainer.hpp: operator=, assign, operator+=", "librapid/include/librapid/array/assignOps.hpp: assign, assignParallel", "librapid/include/librapid/array/linalg/transpose.hpp: Transpose::applyTo, scalar, eval", "librapid/include/librapid/array/generalArrayView.hpp: operator=", "librapid/include/librapid/array/linalg/arrayMultiply.hpp: ArrayMultiply, dotHelper"]}
{"id": "C74", "title": "Lazy expressions can be kept, copied, iterated over and evaluated later", "statement": "An expression such as a + b, a row of an array, or any combination of them, kept in a variable, evaluates later to what its text stands for over the arrays as they are then, for every history of declarations, updates and scope ends in which what it refers to is still alive; evaluating it where it is written works whatever temporaries it goes through; copies of it and loops over it see the same elements; assigning one expression variable to another makes it stand for the other expression.", "quantifier": "all element types and operations, all expression trees over named arrays, numbers, views, other kept expressions, literals and temporaries, all histories of declarations, element writes, replacements and scope ends of any length", "why_tests_cant": "A test fixes one program; a dangling reference often still reads the old bytes, so a test that passes shows nothing, and the histories of declarations and scope ends are unbounded.", "anchors": ["librapid/include/librapid/array/operations.hpp: makeFunction", "librapid/include/librapid/array/function.hpp: Function", "librapid/include/librapid/array/arrayIterator.hpp: ArrayIterator", "librapid/include/librapid/array/generalArrayView.hpp: GeneralArrayView copy constructor, operator[]", "librapid/include/librapid/array/arrayContainer.hpp: operator[], begin, end"]}
{"id": "C75", "title": "Doubled-precision sums and squares are exact, and log|z| of a double complex keeps its accuracy next to the unit circle", "statement": "The sum of two floating-point numbers as an unevaluated pair is exact for all operands; the cheaper variant is exact whenever its documented requirement holds; the square of a double as a pair is exact unless it underflows, with and without fused multiply-add; x^2+y^2-1 is computed with one rounding error plus 2^-100 x^2; log(1+x) has relative error 2^-46 for every x > -1; log|z| for Complex<double> has relative error 2^-44 plus 2^-95 also where |z| is close to 1. For Complex<float> the same must hold.", "quantifier": "every pair of numbers of every binary format with at least two bits (sums); every finite double given by its 64 bits (squares, norm, logarithm); every logarithm function with relative error 2^-52", "why_tests_cant": "an error-free transformation is a statement about all pairs of bit patterns; loss of accuracy shows only at isolated points near the unit circle", "anchors": ["librapid/include/librapid/math/complex.hpp: multiprec::addX2, addSmallX2, addX1, highHalf, sqrError, sqrX2", "librapid/include/librapid/math/complex.hpp: algorithm::normMinusOne, logP1, logHypot"]}
{"id": "C76", "title": "Triangular matrix products", "statement": "trmv replaces the vector x by op(T) x, and trmm replaces the block B by alpha op(T) B or alpha B op(T), where T is the triangle of A selected by the storage order, the upper/lower flag and the implicit-unit-diagonal flag. Nothing else in memory changes, and the entries of A outside the selected triangle are never read.", "quantifier": "all storage orders, triangles, operations (plain, conjugated, transposed, both), diagonals, sizes, leading dimensions, positive and negative increments, memory contents", "why_tests_cant": "the loops overwrite the operand they read, so an order mistake shows only for some of the 64 mode combinations, sizes and strides.", "anchors": ["librapid/cxxblas/level2/trmv.tcc: trmv_generic, trmv", "librapid/cxxblas/level3/trmm.tcc: trmm_generic, trmm", "librapid/cxxblas/level1extensions/gescal.tcc: gescal_init"]}
{"id": "C77", "title": "Triangular systems", "statement": "trsv replaces x by the solution x' of op(T) x' = x, and trsm replaces B by the X with op(T) X = alpha B or X op(T) = alpha B, whenever no diagonal entry of T is zero. Solving after multiplying, and multiplying after solving, restores the whole memory.", "quantifier": "all storage orders, triangles, operations, diagonals, sizes, leading dimensions, increments, memory contents over any field", "why_tests_cant": "forward and backward substitution are chosen by three flags, and a residual check covers only the sizes and modes tried.", "anchors": ["librapid/cxxblas/level2/trsv.tcc: trsv_generic, trsv", "librapid/cxxblas/level3/trsm.tcc: trsm_generic, trsm", "librapid/cxxblas/level1extensions/gescal.tcc: gescal"]}
{"id": "C78", "title": "Products with symmetric and Hermitian matrices", "statement": "The bundled BLAS multiplies by a symmetric or Hermitian matrix of which only one triangle is kept: symv and hemv put beta y + alpha A x into y and symm and hemm put beta C + alpha A B or beta C + alpha B A into C, where the missing triangle is the mirror image (conjugated, with a real diagonal, in the Hermitian case). Entries outside the kept triangle are never read and only y or C changes.", "quantifier": "all storage orders, triangles, sides, sizes, leading dimensions, positive and negative increments, scalars, element types forming a commutative semiring, and memories in which the result is apart from the operands", "why_tests_cant": "Tests use a few sizes and full symmetric matrices, so a read of the wrong half, a doubled diagonal, a missing conjugate or a wrong start for a negative increment can stay hidden.", "anchors": ["librapid/cxxblas/level2/symv.tcc:symv_generic", "librapid/cxxblas/level2/hemv.tcc:hemv_generic", "librapid/cxxblas/level3/symm.tcc:symm_generic", "librapid/cxxblas/level1extensions/acxpy.tcc:acxpy", "librapid/cxxblas/level3/hemm.tcc:hemm_generic", "librapid/cxxblas/level2extensions/hemv.tcc:hemv"]}
{"id": "C79", "title": "Rank-one, rank-two and rank-k updates", "statement": "The bundled BLAS adds alpha x y^T (ger, geru) or alpha x y^H (gerc) to a matrix; syr, her, syr2, her2, syrk, syr2k, herk and her2k update exactly the chosen triangle of a symmetric or Hermitian matrix with alpha x x^T, alpha x x^H (real diagonal), alpha (x y^T + y x^T), alpha x y^H + conj(alpha) y x^H, alpha op(A) op(A)^T, alpha (op(A) op(B)^T + op(B) op(A)^T), alpha op(A) op(A)^H and alpha op(A) op(B)^H + conj(alpha) op(B) op(A)^H (real diagonal), after scaling by beta where there is one. Nothing outside the block or triangle changes; with alpha = 0 her and her2 change nothing at all.", "quantifier": "all storage orders, triangles, transposition modes, sizes, leading dimensions, positive and negative increments, scalars, element types forming a commutative semiring, and memories in which the updated block or triangle is apart from the operands", "why_tests_cant": "Which triangle is touched, which operand is conjugated and where each row starts depend on order, triangle, mode and increment together; tests visit few combinations and rarely look at the untouched half.", "anchors": ["librapid/cxxblas/level2/ger.tcc:ger_generic", "librapid/cxxblas/level2/syr.tcc:syr_generic", "librapid/cxxblas/level2/her.tcc:her_generic", "librapid/cxxblas/level2/syr2.tcc:syr2_generic", "librapid/cxxblas/level2/her2.tcc:her2_generic", "librapid/cxxblas/level3/syrk.tcc:syrk_generic", "librapid/cxxblas/level3/syr2k.tcc:syr2k_generic", "librapid/cxxblas/level1extensions/syscal.tcc:syscal_init_generic", "librapid/cxxblas/level3/herk.tcc:herk_generic", "librapid/cxxblas/level3/her2k.tcc:her2k_generic", "librapid/cxxblas/level1extensions/hescal.tcc:hescal"]}
{"id": "C80", "title": "Accuracy of sums and products in float and double", "statement": "A dot product of the bundled BLAS, every entry of a matrix-matrix or matrix-vector product, and a Vector's dot, sum and squared magnitude, computed in IEEE arithmetic of precision p (unit roundoff u = 2^-p), lie within n u sum|a_i b_i| (plus n (1 + n u) times half the smallest positive number, for products that underflow) of the exact value for every length n, in whatever order and bracketing the lanes or threads add; plain sums within (n-1) u sum|x_i|. A finite result means all operands were finite; the result is finite when sum|a_i b_i| plus the bound is below the overflow threshold; for integers with sum|a_i b_i| <= 2^p it is exact. The previous content of the result's storage never matters, not even NaN or infinity.", "quantifier": "all precisions p > 0 and exponent ranges emax > p (so float and double), all sizes, strides, memories and operand values including infinities and NaN, all thread schedules, all packet widths", "why_tests_cant": "Rounding errors accumulate over unbounded lengths and depend on the values and the order of additions; tests compare a few small cases against a tolerance.", "anchors": ["librapid/cxxblas/level1/dot.tcc:dot_generic, dotu_generic", "librapid/cxxblas/level1/asum.tcc:asum_generic", "librapid/cxxblas/level3/gemm.tcc:gemm_generic", "librapid/include/librapid/array/linalg/arrayMultiply.hpp:ArrayMultiply", "librapid/include/librapid/math/vectorImpl.hpp:sum, sum2, dot"]}
{"id": "C81", "title": "linspace and arange in float and double", "statement": "linspace(start, stop, n) has n elements, the first is start, they are ordered the way start and stop are, and each lies within one unit roundoff of the exact point plus four of its distance from start; if (|start| + |stop|) times the number of intervals is an eighth of the overflow threshold or less no element overflows, and integer grids are exact. arange returns only for a non-zero step pointing from start to stop; its length is the exact ratio rounded down, up to the two roundings of the ratio; all elements lie between start and stop and are accurate. The following is false and refuted: linspace ends at (or before) stop, never overflows, works for one element with the end included; arange has floor(ratio) elements.", "quantifier": "all precisions and exponent ranges (so float and double), all finite start, stop and step, all lengths up to 2^p (arange elements: 2^p / 16)", "why_tests_cant": "Whether an element lies outside the interval, breaks the order or overflows depends on the bits of the arguments and on every index; there are 2^128 pairs of doubles.", "anchors": ["librapid/include/librapid/array/pseudoConstructors.hpp:linspace, arange"]}
{"id": "C82", "title": "lerp, clamp, smoothStep and isClose in float and double", "statement": "For t in [0, 1] lerp is exact at both ends, never leaves the interval, is monotone in t and lies within 3 u (|lower| + |upper|) of the exact value, provided upper - lower does not overflow or the signs make it unnecessary; NaN arguments give NaN. clamp returns the nearest value of the interval, keeps NaN and throws for an empty interval. smoothStep is exactly 0 at and below the lower edge, exactly 1 at and above the upper edge, never negative and within 108 u of the polynomial. isClose has no false negatives, its false positives lie within three roundings of the tolerance, it is symmetric and false on NaN. The following is false and refuted: lerp is accurate for all finite arguments; smoothStep never exceeds 1; isClose(x, x) holds for infinite x.", "quantifier": "all precisions p >= 8 (lerp, clamp, isClose: all) and exponent ranges, all argument values under the stated conditions", "why_tests_cant": "Staying inside an interval and being monotone must hold for every bit pattern; rounding violates such claims on isolated inputs.", "anchors": ["librapid/include/librapid/math/utilityFunctions.hpp:lerp, clamp, smoothStep, isClose", "librapid/include/librapid/math/coreMath.hpp:min, max, abs"]}
{"id": "C83", "title": "random and randint stay in range despite rounding", "statement": "For finite bounds whose difference does not overflow and any generated w in [0, 1), random(lower, upper) in double lies in [lower, upper]. randint(0, upper) lies in [0, upper]; randint(lower, upper) with 0 <= lower does unless w is within a few roundings of 1. The following is false and refuted: random is always below upper; random of float arguments never exceeds upper; randint(lower, upper) never exceeds upper (randint(1, 1) can return 2).", "quantifier": "all precisions and exponent ranges, all finite bounds, all generated values w in [0, 1)", "why_tests_cant": "The failing draws have probability near 2^-53; a test would have to draw for years to meet one.", "anchors": ["librapid/include/librapid/math/random.hpp:random, randint"]}
{"id": "C84", "title": "Complex products and quotients in float and double", "statement": "Each part of z * w is within 2 u |z| |w| of the exact part (plus four underflow units) if it is finite, both are finite if |z| |w| is at most a quarter of the overflow threshold, and the imaginary part of z times its conjugate is exactly 0. For a finite w whose larger part is normal and at most a quarter of the overflow threshold, each part of z / w is within 8 u |z| / |w| (plus underflow) of the exact part, no part overflows when z's parts and |z| / |w| are at most a quarter of the threshold, and the real part of z / z is exactly 1. Dividing by zero gives NaN. The following is false and refuted: z / z has imaginary part 0; z / z is a number for every finite z; each part of a quotient is accurate relative to itself.", "quantifier": "all precisions p >= 8 (products: all) and exponent ranges, all complex numbers under the stated conditions", "why_tests_cant": "Cancellation, overflow and underflow of intermediate results depend on the magnitudes of four numbers; tests sample a few.", "anchors": ["librapid/include/librapid/math/complex.hpp:Complex::_mul, Complex::_div"]}
{"id": "C85", "title": "Packed triangular, symmetric and Hermitian matrices", "statement": "Packed storage keeps each entry of one triangle in exactly one of n(n+1)/2 consecutive cells. On it tpmv replaces x by op(T) x, tpsv replaces x by the solution of op(T) x' = x when no diagonal entry is zero, each undoing the other; spmv and hpmv compute y := beta y + alpha S x with the symmetric or Hermitian matrix S whose half is stored; spr, spr2, hpr and hpr2 replace the stored half by that of S + alpha x x^T, S + alpha (x y^T + y x^T), S + alpha x x^H and S + alpha x y^H + conj(alpha) y x^H, the diagonal of the last two made real (alpha = 0 changes nothing at all). No other cell of memory changes.", "quantifier": "all storage orders, triangles, operations, stored or implicit diagonals, sizes, increments of either sign, scalars and memory contents over any commutative semiring (a field for tpsv)", "why_tests_cant": "The start of each packed row is a running quadratic offset that depends on order and triangle; an off-by-one is invisible at the one or two sizes a test tries, and untouched cells are rarely compared.", "anchors": ["librapid/cxxblas/level2/tpmv.tcc:tpmv", "librapid/cxxblas/level2/tpsv.tcc:tpsv", "librapid/cxxblas/level2/spmv.tcc:spmv", "librapid/cxxblas/level2/hpmv.tcc:hpmv", "librapid/cxxblas/level2/spr.tcc:spr", "librapid/cxxblas/level2/spr2.tcc:spr2", "librapid/cxxblas/level2/hpr.tcc:hpr", "librapid/cxxblas/level2/hpr2.tcc:hpr2"]}
{"id": "C86", "title": "Band matrices", "statement": "With only the band stored, tbmv replaces x by op(T) x, tbsv replaces x by the solution of op(T) x' = x when no diagonal entry is zero, each undoing the other; sbmv and hbmv compute y := beta y + alpha S x for symmetric and Hermitian band matrices; gbmv computes y := beta y + alpha op(M) x (or conj(x)) for a rectangular matrix with kl lines below and ku above the diagonal. Entries outside the band count as zero, the unused corners of the stored band are neither read nor written, and only the result vector changes. A matrix without rows or columns leaves y unchanged.", "quantifier": "all storage orders, triangles, operations, stored or implicit diagonals, sizes, band widths (also wider than the matrix), leading dimensions, increments of either sign, scalars and memory contents over any commutative semiring (a field for tbsv)", "why_tests_cant": "Row starts and lengths are minima and maxima of the index, the band widths and the size; the corner cases (band wider than the matrix, first and last rows, more columns than rows) multiply with the flags.", "anchors": ["librapid/cxxblas/level2/tbmv.tcc:tbmv", "librapid/cxxblas/level2/tbsv.tcc:tbsv", "librapid/cxxblas/level2/sbmv.tcc:sbmv", "librapid/cxxblas/level2/hbmv.tcc:hbmv", "librapid/cxxblas/level2/gbmv.tcc:gbmv", "librapid/cxxblas/level2extensions/gbmv.tcc:gbmv"]}
{"id": "C87", "title": "Rounding functions on double with real rounding errors", "statement": "round of any finite double to an integer is exact: nearest with ties away from zero, or the integer part for DOWN, with the sign kept. Rounding to up to six decimal places, or to up to seven significant figures of a number between 1e-6 and 1e7, returns the chosen decimal to within a few units of rounding, the decimal itself being chosen from the scaled number with a few roundings. roundTo and roundUpTo return the nearest, or next, multiple up to rounding. roundSigFig ends for every finite number.", "quantifier": "for every double (finite, infinite or NaN), number of places or figures, rounding mode and unit", "why_tests_cant": "there are 2^64 doubles, and the errors depend on how each scaling by a power of ten rounds; termination of the scaling loops is a statement about all of them", "anchors": ["librapid/include/librapid/math/round.hpp: round, roundTo, roundUpTo, roundSigFig", "librapid/src/fastMath.cpp: pow10"]}
{"id": "C88", "title": "Real Fourier transform of an array", "statement": "rfft of a one-dimensional array of n real numbers returns n/2+1 complex numbers, element k being the sum of x_j exp(-2 pi i j k/n); the missing coefficients are the conjugates of the returned ones, so the array can be recovered exactly from the result (inverse transform), different arrays have different transforms, the transform is linear and its energy is n times that of the array. Arrays that are not one-dimensional are refused, and the result does not depend on which FFT library is configured.", "quantifier": "every array, length, index and real contents; both FFT back ends; assertions on and off", "why_tests_cant": "invertibility and the size of the result are statements about every length and all contents; the lengths at which the second back end goes wrong need more memory than a test has", "anchors": ["librapid/include/librapid/array/fourierTransform.hpp: fft::rfft, detail::cpu::rfft", "librapid/include/librapid/array/storage.hpp: safeAllocate"]}
{"id": "C89", "title": "Products with sparse matrices", "statement": "The bundled BLAS products of a sparse matrix in compressed row or column storage with a vector or a dense matrix compute exactly beta*y + alpha*op(M)*x, where M has the stored numbers in the stored places and zero elsewhere (several numbers for one place add up). It holds for all four transposition modes, for symmetric and Hermitian matrices of which one triangle is stored, and does not depend on whether rows are numbered from 0, 1 or another number. Nothing but y is changed and nothing outside the arrays is read.", "quantifier": "every size, pattern of stored entries, numbering base, alpha, beta and contents; all modes; both triangles; row and column storage", "why_tests_cant": "a test fixes a pattern; the result must be right for every pattern, including empty lines, repeated entries and either order of the diagonal", "anchors": ["librapid/cxxblas/sparselevel2: gecrsmv, sycrsmv, syccsmv, hecrsmv, heccsmv", "librapid/cxxblas/sparselevel3: gecrsmm, sycrsmm, syccsmm, hecrsmm, heccsmm"]}
{"id": "C90", "title": "Copying, adding, exchanging, dividing and transposing dense matrices", "statement": "In the bundled BLAS, copying op(A) to B, adding alpha op(A) to B (also with B scaled by beta, or A divided by alpha), dividing a matrix by a number, exchanging two matrices and replacing a matrix by op(A) in place set every entry to exactly the value the name says, and write nothing else, for rows or columns kept one after the other and for every mode (plain, conjugate, transposed, both).", "quantifier": "every element type (a commutative semiring where sums and products are rearranged), all sizes including 0, every leading dimension that is large enough, every order, mode, scalar and memory", "why_tests_cant": "The routines take different paths for packed and unpacked matrices, four modes and two orders; wrong bounds show only for sizes that are not square or leading dimensions that differ, and a write outside the matrix shows only if something is looked at there.", "anchors": ["librapid/cxxblas/level1extensions/gecopy.tcc: gecopy", "librapid/cxxblas/level1extensions/geaxpy.tcc: geaxpy", "librapid/cxxblas/level1extensions/geaxpby.tcc: geaxpby", "librapid/cxxblas/level1extensions/geraxpy.tcc: geraxpy", "librapid/cxxblas/level1extensions/gerscal.tcc: gerscal", "librapid/cxxblas/level1extensions/geswap.tcc: geswap", "librapid/cxxblas/level1extensions/gecotr.tcc: gecotr", "librapid/cxxblas/level1extensions/axpby.tcc: axpby", "librapid/cxxblas/level1extensions/raxpy.tcc: raxpy"]}
{"id": "C91", "title": "Copying, adding and scaling triangular and packed matrices", "statement": "The routines for triangular, trapezoidal and packed matrices of the bundled BLAS copy op(A) to B, add alpha op(A) to B (also with B scaled by beta) and scale A on exactly the triangle named, with or without its diagonal, and write nothing else.", "quantifier": "every element type, all sizes, both triangles, both orders, every mode, unit or stored diagonal, every scalar and memory", "why_tests_cant": "Which entries are written depends on triangle, order, mode, diagonal and the ratio of rows to columns; wrong index formulas agree with the right ones for small or square matrices (a wrong packed transposition gives the right result up to 3 x 3).", "anchors": ["librapid/cxxblas/level1extensions/trcopy.tcc: trcopy", "librapid/cxxblas/level1extensions/traxpy.tcc: traxpy", "librapid/cxxblas/level1extensions/traxpby.tcc: traxpby", "librapid/cxxblas/level1extensions/trscal.tcc: trscal", "librapid/cxxblas/level1extensions/tpcopy.tcc: tpcopy", "librapid/cxxblas/level1extensions/tpaxpy.tcc: tpaxpy", "librapid/cxxblas/level1extensions/tpaxpby.tcc: tpaxpby", "librapid/cxxblas/level1extensions/tpscal.tcc: tpscal"]}
{"id": "C92", "title": "Copying, adding, transposing and scaling band matrices", "statement": "The routines for band matrices of the bundled BLAS copy op(A) to B, add alpha op(A) to B (also with B scaled by beta), scale A and replace A by op(A) in place on exactly the entries inside the band and the matrix, and write nothing else.", "quantifier": "every element type, all sizes and band widths, both orders, every mode, every leading dimension that is large enough, every scalar and memory", "why_tests_cant": "The length of each diagonal depends on its number, the sizes and the mode; square matrices hide exchanged sizes, and unused corners of band storage hide writes outside the band.", "anchors": ["librapid/cxxblas/level1extensions/gbcopy.tcc: gbcopy", "librapid/cxxblas/level1extensions/gbaxpy.tcc: gbaxpy", "librapid/cxxblas/level1extensions/gbaxpby.tcc: gbaxpy", "librapid/cxxblas/level1extensions/gbscal.tcc: gbscal", "librapid/cxxblas/level1extensions/gbcotr.tcc: gbcotr"]}
{"id": "C93", "title": "Dividing halfs is correctly rounded", "statement": "x / y on half returns the half nearest to the exact quotient, although it is computed by rounding twice (a float quotient, then a conversion): exact quotients come out exactly, x / x is 1, x / 1 is x; division by zero and of infinities gives infinities with the right sign, 0 / 0 and infinity / infinity give NaN.", "quantifier": "all pairs of 16-bit patterns, every NaN and over-long shift result a machine may produce", "why_tests_cant": "There are 2^32 operand pairs; double rounding errors would show only where a quotient lies very near the middle of two halfs.", "anchors": ["librapid/include/librapid/math/half.hpp: half::operator/=, operator/, half(float), operator float"]}
{"id": "C94", "title": "Conversions between half and double or integers", "statement": "half(d) for a double or an integer is the nearest half; static_cast<double>(h) is exact and converting back returns h; static_cast to an integer type truncates towards zero.", "quantifier": "all doubles, integers and 16-bit patterns, every range of an integer type", "why_tests_cant": "The conversion from double rounds twice, which is wrong only for doubles very near the middle of two halfs.", "anchors": ["librapid/include/librapid/math/half.hpp: half(T), operator T"]}
{"id": "C95", "title": "Triangular solves and products of float and double are backward stable", "statement": "The BLAS routine that solves a triangular system (trsv) returns a vector that, wherever it is finite, satisfies each equation up to max(n-1,2) roundings of the terms of that equation (plus an underflow term): it is the exact solution of a system whose entries are relatively perturbed by that much, and its distance to the true solution is at most |inverse| times these residuals. Systems of integers with integer solutions are solved exactly while the terms of each equation stay within 2^precision. The triangular product (trmv) is within one rounding per term of the exact product. Only the vector is written.", "quantifier": "every binary floating point format (float, double), storage order, triangle, transposition, unit or non-unit diagonal, size, leading dimension, stride of either sign, and every finite matrix and right-hand side", "why_tests_cant": "rounding errors depend on every entry and accumulate with the size; tests compare a few well-conditioned systems with a tolerance", "anchors": ["librapid/cxxblas/level2/trsv.tcc: trsv", "librapid/cxxblas/level2/trmv.tcc: trmv"]}
{"id": "C96", "title": "Euclidean norms are accurate and do not overflow on the way", "statement": "The BLAS routine nrm2 returns the Euclidean length of a strided vector of real or complex numbers; for float and double the result is within 8(n+1) roundings of the length (2n numbers for complex vectors) whenever the length itself fits the format, although the squares of the elements may overflow or underflow.", "quantifier": "every vector length, stride of either sign or zero, every finite content, every binary floating point format with at least 6 bits, n up to 2^precision/64", "why_tests_cant": "the rounding errors accumulate through a data-dependent rescaling; tests compare a few short vectors of ordinary magnitude", "anchors": ["librapid/cxxblas/level1/nrm2.tcc: nrm2_generic, nrm2", "librapid/cxxblas/auxiliary/pow.tcc: pow"]}
{"id": "C97", "title": "Givens rotations rotate, keep lengths and can be undone", "statement": "rotg returns c, s with c^2+s^2=1 that map (a,b) to (r,0) with |r| the length of (a,b), for real and complex numbers; rot applies such a rotation to two strided vectors, keeps the sum of squares of each pair and of the vectors, writes nothing else, and is undone by the opposite rotation. The single number z that rotg leaves in b stands for (c,s) as the BLAS standard describes - this fails when |a|=|b|: z is 1, which stands for (0,1). rotg of double returns NaN when |a|+|b| overflows although the length fits.", "quantifier": "every a and b, every vector length, stride and content", "why_tests_cant": "identities over all numbers; the failing cases |a|=|b| and overflow of |a|+|b| are corner cases tests do not contain", "anchors": ["librapid/cxxblas/level1/rot.tcc: rot, rotg"]}
{"id": "C98", "title": "Products of banded matrices with ordinary ones", "statement": "gbmm stores beta C + alpha op(A) op(B), or beta C + alpha op(B) op(A), for a general band matrix A with any numbers of diagonals below and above, every pair of operations and either order of storage. sbmm and hbmm do the same for symmetric and Hermitian band matrices of which one half is kept. tbmm stores alpha op(A) B or alpha B op(A) over B for triangular band matrices. Only the elements of the result change and no element outside the matrices is touched.", "quantifier": "all element types, storage orders, sides, triangles, operations, sizes, band widths, scalars, leading dimensions and memories with the result apart from the operands", "why_tests_cant": "sixteen pairs of operations times two orders and two sides, and unbounded sizes and bandwidths; the failing branches of tbmm only show when the memory behind B is watched", "anchors": ["librapid/cxxblas/level3extensions/gbmm.tcc: gbmm", "librapid/cxxblas/level3extensions/hbmm.tcc: hbmm", "librapid/cxxblas/level3extensions/sbmm.tcc: sbmm", "librapid/cxxblas/level3extensions/tbmm.tcc: tbmm"]}
{"id": "C99", "title": "The sigmoid activation in floating point", "statement": "Over float and double the Sigmoid activation sends every number, infinities included, to a finite number between 0 and 1, never decreases, is exactly 1/2 at zero, 1 and 0 at the infinities and NaN for NaN. It is the logistic function up to six roundings. The derivative computed from the activation stays between 0 and 1/4 and is y(1-y) up to three roundings.", "quantifier": "all binary floating-point formats with at least six bits of precision, all inputs, and all exponential functions that are monotone and accurate to two units", "why_tests_cant": "monotonicity and range over 2^64 inputs, for whatever exponential function the platform brings; the overflow of exp(-x) and the saturation at 1 happen only far out", "anchors": ["librapid/include/librapid/ml/activations.hpp: Sigmoid::forward, Sigmoid::backward"]}
{"id": "C100", "title": "Lengths and directions of float and double vectors", "statement": "mag of a vector of floats or doubles without NaN is a number >= 0 or infinity. When the square of the length neither overflows nor comes near the subnormal numbers, mag is finite and accurate to N+2 roundings, every element of norm is accurate to 2(N+2) roundings, and the length of norm is 1 up to 6(N+2) roundings.", "quantifier": "all formats with at least six bits, all vector sizes and SIMD widths, all expressions of vectors with zero padding, all elements", "why_tests_cant": "the lanes are added in an order that depends on the SIMD width, and the error must be bounded for every vector; overflow and underflow of the squares happen far from the usual values", "anchors": ["librapid/include/librapid/math/vectorImpl.hpp: mag2, mag, norm, SimdVectorStorage::sum2"]}
{"id": "C101", "title": "Conversions of multi-precision numbers", "statement": "toMpz of an mpf or mpq is the integer part; toMpf/toMpq/toMpz round-trip integers that fit; an mpfr converts to mpf/mpq/mpz through its decimal text with an error of at most 2^-p(|x|+100), exactly for integers that fit, and NaN and infinities throw; toMpfr is correct to p bits; abs, copySign, signBit and ldexp are what their names say. The text honours the requested digits, small mpfr numbers keep their value, toMpz(mpfr) truncates, signBit(0) is false and ldexp takes negative exponents - these five are false.", "quantifier": "all numbers, precisions up to a million bits and every behaviour of the GMP/MPFR number types that keeps p leading bits", "why_tests_cant": "the values and precisions are unbounded; the failures sit near decimal ties and at tiny numbers", "anchors": ["librapid/src/multiprecCasting.cpp: toMpz, toMpf, toMpq, toMpfr", "librapid/src/multiprecToString.cpp: str", "librapid/src/multiprecModAbs.cpp: abs", "librapid/include/librapid/math/multiprec.hpp: copySign, signBit, ldexp"]}
{"id": "C102", "title": "Complex square root in float and double", "statement": "sqrt of any finite complex number is finite and both parts are within nine roundings of the root in the right half plane, with the side of the negative real axis chosen by the sign of the imaginary part: no intermediate overflow or underflow. On the real axis it is the correctly rounded real root. Zeros, infinities and NaN follow the C99 table, and the root of the conjugate is the conjugate of the root up to the sign of a zero real part. That the real part is never -0 is false.", "quantifier": "all pairs of float or double numbers, including subnormal, infinite and NaN", "why_tests_cant": "2^64 or 2^128 arguments; errors sit where scaling, cancellation or the two branches of the hypotenuse meet", "anchors": ["librapid/include/librapid/math/complex.hpp: _fabs, sqrt", "librapid/include/librapid/utils/memUtils.hpp: ldexp, copySign", "librapid/include/librapid/math/coreMath.hpp: abs"]}
{"id": "C103", "title": "CUDA kernel sources are loaded whole and once", "statement": "Loading a CUDA kernel gives a text made of a line with its path, the three prelude files and the kernel file. With assertions enabled, every load of a path gives the text of the first load of that path that found its files, however the files change, and an exception if there has been none; a failed load leaves nothing behind. A text handed out is never replaced, and different paths never share a text.", "quantifier": "every history of loads of any paths, relative or not, with any change of the file system before each load; assertions enabled or not", "why_tests_cant": "The cache is a process-wide static: what a load returns depends on the whole history of loads and of file changes before it, and the ways in which files can be missing, empty or read-only are combined freely.", "anchors": ["librapid/src/cudaKernelProcessor.cpp: loadKernel", "librapid/include/librapid/cuda/cudaKernelProcesor.hpp: loadKernel, runKernel"]}
{"id": "C104", "title": "OpenCL error codes get their names", "statement": "For every 64-bit error code the name is looked up inside the table; codes outside -63..0 are reported as unknown; no two codes share a name; the codes of OpenCL 1.0 get the names of the standard.", "quantifier": "every signed 64-bit error code", "why_tests_cant": "There are 2^64 codes, and a negated index or an off-by-one at either end of the table reads outside it.", "anchors": ["librapid/src/openclErrorIdentifier.cpp: getOpenCLErrorString"]}
{"id": "C105", "title": "Scaled matrix products and updates in float and double", "statement": "C := alpha A B + beta C of the bundled gemm and gemv adds at most three roundings per element to the error of the sum of products, stays finite below the overflow threshold and is exact on small integers; beta = 0 ignores the old contents even if they are NaN, alpha = 0 ignores A and B. A product of lazily scaled arrays, such as dot(2 * a, 3 * transpose(b)), is the product of the factors times the sum of products, with the same bound, and the factor is the product of all factors up to one rounding each.", "quantifier": "every precision and exponent range, every size, transposition, leading dimension, alpha, beta, contents, thread schedule and nesting of lazy scalings", "why_tests_cant": "Rounding errors depend on all operands and lengths; tests compare a few values with a tolerance and cannot exclude inputs whose error exceeds it, or old contents and schedules that leak into the result.", "anchors": ["librapid/cxxblas/level3/gemm.tcc: gemm_generic, gemm_generic_parallel", "librapid/cxxblas/level2/gemv.tcc: gemv_generic", "librapid/cxxblas/level1/scal.tcc: scal_init_generic", "librapid/include/librapid/array/linalg/arrayMultiply.hpp: dot, dotHelper, ArrayMultiply::applyTo"]}
{"id": "C106", "title": "Complex dot products and matrix products in float and double are accurate in each part", "statement": "For Complex<float> and Complex<double> elements, the bundled dot (which conjugates its first operand), dotu, the matrix product and the matrix-vector product return, in each of the real and imaginary parts, a value within the rounding bound for a sum of 2n real products of the exact part, whenever both parts of the result are finite. The result is finite if the operands are and the moduli stay below the overflow threshold, and it is exact for Gaussian integers with moduli up to 2^precision. In the complex plane the distance from the exact sum is at most sqrt(2) times the bound for the sum of |a||b|. The parts are not independent: if the real part of a matrix product overflows, the final multiplication by 1 + 0i makes the imaginary part a NaN.", "quantifier": "all precisions and exponent ranges (float and double among them), all lengths, strides and shapes, all values including infinities and NaNs, all thread schedules, all previous contents of the result storage", "why_tests_cant": "The error depends on the values, the length and the order of the additions; a test compares a few products with a tolerance and never establishes the bound, nor the absence of overflow below the threshold.", "anchors": ["librapid/include/librapid/math/complex.hpp: Complex::_add, Complex::_mul, operator==, conj", "librapid/cxxblas/level1/dot.tcc: dot, dotu", "librapid/cxxblas/level3/gemm.tcc: gemm_generic", "librapid/cxxblas/level2/gemv.tcc: gemv_generic", "librapid/include/librapid/array/linalg/arrayMultiply.hpp: dot, ArrayMultiply"]}
{"id": "C107", "title": "The real part of the logarithm of a complex double is accurate for every finite argument", "statement": "For every pair of finite doubles that are not both zero, however small or large, the real part of log(Complex<double>) is finite and within 2^-44 |m| + 2^-95 of m = ln of the modulus, given a log function accurate to 2^-52. It does not depend on the signs and the order of the components, to the last bit. Zero gives minus infinity and a NaN in a component gives a NaN. For infinite components the result should be plus infinity, but a negative infinite component is returned as it is, so log(-inf + 0i) has the real part -inf.", "quantifier": "all 2^128 pairs of bit patterns of doubles, with and without fused multiply-subtract, all log functions with the stated accuracy", "why_tests_cant": "Four branches (near the unit circle, ordinary, tiny, huge) with different error analyses; the claims range over all doubles and over the platform's log.", "anchors": ["librapid/include/librapid/math/complex.hpp: detail::algorithm::logHypot, _logAbs, log"]}
{"id": "C108", "title": "Dual numbers in float and double give the plain values and accurate derivatives", "statement": "Running any expression on Dual numbers gives, in the value component, exactly (bit for bit, including overflow and NaN) what the same expression gives on plain scalars. For sums, differences and products (and quotients by scalars) of float or double duals whose results are finite, value and derivative are within an explicit rounding-error bound of the exact polynomial and its exact derivative; for integers of moderate size both are exact; a zero seed gives a zero derivative. Quotients by duals and square roots have accurate derivatives as long as the square of the divisor does not overflow or underflow.", "quantifier": "every expression (of any size), every scalar type for the value component; every binary floating-point format with precision at least 3, every finite or non-finite argument and seed", "why_tests_cant": "the bound is about every expression and every pair of doubles; overflow and underflow of the squared divisor only shows for extreme values", "anchors": ["librapid/include/librapid/autodiff/dual.hpp: Dual, operator+, operator-, operator*, operator/, sin, sqrt, pow"]}
{"id": "C109", "title": "tanh and tan of complex numbers are accurate in both parts and never overflow", "statement": "For complex numbers over float and double, tanh and tan of every finite argument have two finite parts, each accurate to a small multiple of the rounding unit (31 and 17 roundings), provided the real sinh and tan are accurate to one unit in the last place; where sinh or the denominator overflows the result is +-1 with a zero for the negligible part. tanh is odd in the real part exactly, and conjugates give conjugates up to the sign of a zero. At an infinite real part the result is +-1 and NaN parts give NaN; it differs from the C standard (Annex G) in the sign of that zero and where both parts are infinite.", "quantifier": "every pair of float or double components, every real sinh and tan within one unit in the last place, every precision from 24 bits and exponent range at least as large", "why_tests_cant": "The bound must hold for all 2^128 arguments, including those whose intermediate squares overflow or underflow and those next to the overflow threshold of the denominator, where numerator and denominator could overflow at different arguments.", "anchors": ["librapid/include/librapid/math/complex.hpp:tanh", "librapid/include/librapid/math/complex.hpp:tan"]}
{"id": "C110", "title": "Complex exponential, sine, cosine and polar coordinates in floating point", "statement": "exp, sinh, cosh, sin, cos and polar of complex numbers over float and double: each part that does not overflow differs from the exact value by the errors of the two real library functions and one rounding (ten roundings if they are accurate to two units); exp is finite wherever the real exponential is; conjugation, negation and the identities sin(iz) = i sinh z, cos(iz) = cosh z hold bit for bit; exp at infinite and NaN arguments follows Annex G. Real arguments give the real function and a zero only as long as it does not overflow: beyond, the other part is NaN, at infinity too; and parts inside the range come out infinite when the factor e^x overflows.", "quantifier": "every precision and exponent range (float and double are instances), every pair of components including infinities and NaN, every implementation of the real functions with the stated accuracy", "why_tests_cant": "the bounds hold for all pairs of floating-point numbers and for all libraries of the stated accuracy; tests sample a few points on one platform", "anchors": ["librapid/include/librapid/math/complex.hpp: exp, polar, polarPositiveNanInfZeroRho, sinh, cosh, sin, cos, detail::algorithm::expMul"]}
{"id": "C111", "title": "Every operation on OpenCL arrays runs its kernel for the arrays' element type", "statement": "For every operation on OpenCL arrays (arithmetic, comparisons, elementwise functions, random filling, sigmoid, transpose, matrix products), every element type it compiles for and every mixture of array and scalar operands, a kernel of that operation for that element type is found in the program and run with each argument bound to its own parameter and type. Kernel names are unique. Counterexamples: exp2/exp10 and transposes of unsigned matrices have no kernel (silently nothing happens without assertions); sums and products of small integer arrays, of two element types, or with a scalar of a wider type run a kernel of another type on the buffers; Dual and Complex arrays find no kernel at all; bool and char carry each other's name.", "quantifier": "every operation, operand arrangement, element types of operands, scalars and destination, assertions on or off", "why_tests_cant": "the kernel is found by a string built at run time from a type; each operation, type and operand arrangement is a separate instantiation, and a missing kernel shows only on a device", "anchors": ["librapid/include/librapid/core/traits.hpp: TypeInfo<T>::name", "librapid/include/librapid/array/operations.hpp: kernelName, getKernelName", "librapid/include/librapid/opencl/openclKernelProcessor.hpp: runLinearKernel, setKernelArgs", "librapid/include/librapid/opencl/kernels/*.cl", "librapid/include/librapid/array/linalg/transpose.hpp: opencl::transposeImpl", "librapid/include/librapid/array/linalg/level3/gemm.hpp", "librapid/include/librapid/array/linalg/level2/gemv.hpp", "librapid/src/openclConfigure.cpp: configureOpenCL"]}
{"id": "C112", "title": "An assignment to a CUDA array stores the expression's value for all element types and packet widths", "statement": "For every expression of arrays and scalars of integer and floating element types, assigned to a CUDA array of any such type, the assignment stores in each element the value of the expression, every operation being applied to values of the types its operands have, and leaves every other array unchanged: the kernel of each operation exists in the file looked up, is instantiated with the operands' types or with packets of them, compiles, and its packets cover the elements exactly within the allocation. Counterexamples: with packets, a double expression cannot be assigned to a float array (the test that the types agree compares each with itself, and the kernel fails to compile at run time); asinh, acosh, atanh, exp2 and exp10 have no kernel; expressions of bool and Complex arrays do not compile; packets of three run past the allocation; packets of two floats are never used; the fallback matrix product reads the right matrix as the type of beta; Complex<float> matrices are described to cuBLAS as complex doubles.", "quantifier": "every expression tree, element types, scalar operands, array size, configured packet widths, and order in which the packets of each kernel are treated", "why_tests_cant": "types, operand arrangements, packet widths (fixed at configuration time) and schedules combine without bound, each combination is another instantiation compiled at run time, and the tests need a device", "anchors": ["librapid/include/librapid/array/assignOps.hpp: CudaVectorExtractor, CudaCanVectorise, CudaVectorHelper, cudaTupleEvaluator, assign", "librapid/include/librapid/array/operations.hpp: filename, kernelName", "librapid/include/librapid/core/traits.hpp: cudaPacketWidth, allowVectorisation", "librapid/include/librapid/cuda/kernels/arithmetic.cu, negate.cu, trigonometry.cu, expLogPow.cu, vectorOps.cuh", "librapid/include/librapid/array/linalg/level3/gemm.hpp: gemm"]}
{"id": "C113", "title": "Triangular solves and products with many right-hand sides are accurate in float and double", "statement": "trsm over float or double writes nothing but the block, and leaves alpha times a block Y, rounded once, each finite entry of which satisfies its equation of op(T) Y = B (or Y op(T) = B) up to a few roundings of the terms of that equation; with alpha = 1 the block itself does, and with any alpha the block satisfies the equations for alpha B with one more unit. trmm leaves alpha op(T) B (or alpha B op(T)) to within the rounding errors of the terms, and exactly +0 for alpha = 0 whatever the operands held. Not true: that trsm gives 0 for alpha = 0, or that either routine stays finite whenever the exact answer is representable, because alpha is applied after the solve or the product.", "quantifier": "every precision and exponent range, both orders, sides, triangles, transpositions and diagonal kinds, all sizes, leading dimensions, scalars and finite or non-finite contents", "why_tests_cant": "rounding errors depend on every entry of the operands and on the sizes; tests compare a few blocks with a tolerance", "anchors": ["librapid/cxxblas/level3/trsm.tcc: trsm_generic, trsm", "librapid/cxxblas/level3/trmm.tcc: trmm_generic, trmm", "librapid/cxxblas/level1extensions/gescal.tcc: gescal_generic, gescal_init_generic"]}
{"id": "C114", "title": "Linking an external BLAS library keeps the meaning of the linear algebra routines", "statement": "When LibRapid is built against a CBLAS library, every routine that is handed to it (general, banded and triangular matrix-vector and matrix-matrix products, triangular solves, vector updates with mixed real and complex operands, dot products, scaling, sums and the index of the largest element) has the same effect as the routine LibRapid uses without a library, provided the library does what the CBLAS interface promises for the arguments it receives. In particular the requested operation on the matrix (as is, transposed, conjugated, both) is the one carried out, although the interface has no standard code for conjugation alone.", "quantifier": "all element types forming a ring (a field for solves), sizes, strides, leading dimensions, storage orders, operations, both ways of building (MKL/Accelerate or not, with or without temporaries), and every library that meets the contract", "why_tests_cant": "A test runs against one library and one build configuration; conjugation without transposition and negative strides are rarely exercised, and the differences only show with a particular library.", "anchors": ["librapid/cxxblas/drivers/drivers.tcc: getF77BlasChar, getCxxBlasEnum, CBLAS::getCblasType", "librapid/cxxblas/level2/gemv.tcc, gbmv.tcc, trmv.tcc, trsv.tcc, hpr2.tcc (HAVE_CBLAS)", "librapid/cxxblas/level3/gemm.tcc, trmm.tcc, trsm.tcc (HAVE_CBLAS)", "librapid/cxxblas/level1/asum.tcc, scal.tcc, iamax.tcc (HAVE_CBLAS)", "librapid/cxxblas/level1extensions/axpy.tcc, acxpy.tcc, dot.tcc"]}
{"id": "C115", "title": "Normally distributed random numbers are finite and follow the polar method despite rounding", "statement": "randomGaussian() draws points of the square [-1, 1] x [-1, 1] until one lies inside the unit circle and is not its centre (up to the rounding errors of the squared distance s), and returns v sqrt(-2 ln s / s) for its first coordinate v, and on the next call, without drawing anything, the same for the second coordinate, each with a relative error of at most five unit roundoffs. Every result is finite and at most 12.25 in modulus, for double and, rounded once more, for float.", "quantifier": "all numbers the uniform generator can produce, in any sequence and any number of calls, and every std::log within one unit in the last place", "why_tests_cant": "an infinite or NaN deviate would come from one pair of generator outputs in 2^106, next to the centre or the rim of the disc; sampling cannot reach the tails", "anchors": ["librapid/include/librapid/math/random.hpp: randomGaussian, random"]}
{"id": "C116", "title": "Givens rotations of float and double are accurate", "statement": "For finite a and b whose length lies in the range of normal numbers and whose moduli do not add up to an overflow, rotg in float or double returns finite r, c and s: r is the length of (a,b) with the sign of the component of larger modulus up to six unit roundoffs, c and s are the cosine and sine up to eight, c^2+s^2 is 1 up to twenty, and (c,s) maps (a,b) to (r,0) up to sixteen and ten unit roundoffs of the length; rotg(0,0) is the identity. rot changes only the two vectors and computes each new element with at most three unit roundoffs of the sum of the moduli of its two products; after rotg and rot the annihilated element is below fourteen unit roundoffs of the length. The number z is not always usable: 1/c overflows for b much larger than a.", "quantifier": "every finite a and b in range, in every binary format with at least 24 digits; every pair of vectors, lengths and strides", "why_tests_cant": "the error bounds must hold for all pairs of numbers and all vector lengths; tests compare a few rotations", "anchors": ["librapid/cxxblas/level1/rot.tcc: rotg, rot"]}
{"id": "C117", "title": "Adding and scaling vectors and matrices of float and double", "statement": "y + alpha x, beta y + alpha x, y + x/alpha and their versions for whole matrices (every order and transposition) compute each element with an error of at most three unit roundoffs of the sum of the moduli of the two terms plus three underflow units; alpha y and y/alpha round each element once; a rank-one update A + alpha x y^T adds at most four unit roundoffs of the sum of the moduli, plus an underflow term. Results are finite if the exact terms stay below a quarter of the overflow threshold; y + alpha x is exact on integers that fit; nothing else is written. beta = 0 ignores old contents even if NaN; alpha = 0 does not ignore x: an infinite x gives NaN. In a rank-one update alpha times the factor of the outer loop can overflow although the update is small.", "quantifier": "every binary format with at least 24 digits, every length, stride, order, transposition, leading dimension and content", "why_tests_cant": "error bounds over all operands, lengths and strides; NaN and overflow in intermediate results occur only for operands tests do not use", "anchors": ["librapid/cxxblas/level1/axpy.tcc: axpy", "librapid/cxxblas/level1/scal.tcc: scal", "librapid/cxxblas/level1extensions: axpby, raxpy, rscal, geaxpy, geaxpby, geraxpy, gerscal", "librapid/cxxblas/level2/ger.tcc: geru, ger"]}
{"id": "C118", "title": "Sparse matrix products in float and double are accurate", "statement": "When a sparse matrix of float or double in compressed-row storage is multiplied by a vector, y := beta y + alpha M x (or with the transposed M) changes nothing but y, and each element differs from the exact value by at most (1+u)^K ((K+3) u W + underflow), where K is the number of stored entries of its row (column), u the unit roundoff and W the sum of the moduli of the terms. Nothing overflows as long as W and that error stay below a quarter of the overflow threshold. With beta = 0 the old contents of y, even NaN, do not matter. Without transposition, for integers whose moduli add up to at most 2^prec the result is exact. The same holds for every element of C := beta C + alpha M B with matrices B and C kept by columns, M as stored. An infinite element of x is not hidden by alpha = 0, and the order in which the entries of a row are stored may change the result.", "quantifier": "all matrix shapes, index bases, storage orders, duplicated or missing entries, alpha, beta and vector contents; float, double and every wider IEEE format", "why_tests_cant": "A test compares a few products with a tolerance; the error bound has to hold for rows of any length and all magnitudes, including cancellation and underflow.", "anchors": ["librapid/cxxblas/sparselevel2/gecrsmv.tcc: gecrsmv", "librapid/cxxblas/sparselevel3/gecrsmm.tcc: gecrsmm"]}
