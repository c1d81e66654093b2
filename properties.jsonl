{"id": "C01", "title": "BigInt addition and subtraction are exact integer arithmetic modulo 2^(64N) with a truthful carry", "statement": "For limb vectors a and b of the same length N, Add/AddInPlace returns the limbs of (value(a)+value(b)) mod 2^(64N) and reports carry 1 exactly when the sum does not fit; Sub/SubInPlace returns (value(a)-value(b)) mod 2^(64N) and reports borrow 1 exactly when value(a)<value(b).", "quantifier": "every limb count N and every pair of N-limb values", "why_tests_cant": "2^(128N) operand pairs; carry chains of every length", "anchors": ["tachyon/math/base/big_int.h BigInt::Add, Sub, DoAdd, DoSub", "tachyon/math/base/arithmetics.h AddWithCarry, SubWithBorrow"]}
{"id": "C02", "title": "BigInt multiplication returns the full double-width product", "statement": "MulExtend(a,b) returns (lo,hi) with value(lo)+2^(64N)*value(hi) = value(a)*value(b); Mul returns the low half.", "quantifier": "every N and every pair of N-limb values", "why_tests_cant": "carries propagate through every row of the schoolbook product; corner cases are exponentially rare", "anchors": ["tachyon/math/base/big_int.h BigInt::Multiply, Mul, MulExtend", "tachyon/math/base/arithmetics.h MulAddWithCarry"]}
{"id": "C03", "title": "BigInt division is Euclidean division", "statement": "Divide(a,d) fails exactly when d is zero, otherwise it returns q,r with value(a)=value(q)*value(d)+value(r) and value(r)<value(d).", "quantifier": "every N, every dividend and divisor", "why_tests_cant": "the bitwise loop has a carry path that only triggers when the partial remainder overflows 64N bits", "anchors": ["tachyon/math/base/big_int.h BigInt::Divide, Div, Mod"]}
{"id": "C04", "title": "BigInt shifts are multiplication and division by powers of two", "statement": "MulBy2ExpInPlace(n) (operator<<) yields value*2^n mod 2^(64N) and DivBy2ExpInPlace(n) (operator>>) yields floor(value/2^n), for every shift amount including 0, multiples of 64 and amounts at or beyond the width; MulBy2/DivBy2 are the n=1 cases and MulBy2 reports the bit shifted out.", "quantifier": "every N, every value, every 32-bit shift amount", "why_tests_cant": "the limb loop and the residual shift interact for every residue of n modulo 64", "anchors": ["tachyon/math/base/big_int.h BigInt::MulBy2ExpInPlace, DivBy2ExpInPlace, MulBy2InPlace, DivBy2InPlace"]}
{"id": "C05", "title": "BigInt comparison operators decide the integer order", "statement": "operator== / != / < / > / <= / >= on BigInt agree with the comparison of the represented integers.", "quantifier": "every N and every pair of values", "why_tests_cant": "lexicographic scans are easy to get wrong on one side only", "anchors": ["tachyon/math/base/big_int.h BigInt::operator<, operator>, operator<=, operator>=, operator=="]}
{"id": "C06", "title": "BigInt bit and byte conversions round-trip and preserve the value", "statement": "ToBitsLE/BE and ToBytesLE/BE list the bits/bytes of the value in the announced order, and FromBitsLE/BE, FromBytesLE/BE recover the same BigInt from them.", "quantifier": "every N and every value", "why_tests_cant": "full domain of the codec", "anchors": ["tachyon/math/base/big_int.h FromBitsLE, FromBitsBE, ToBitsLE, ToBitsBE, FromBytesLE, FromBytesBE, ToBytesLE, ToBytesBE"]}
{"id": "C07", "title": "ToNAF is a non-adjacent signed-digit representation of the value", "statement": "The digits returned by ToNAF are in {-1,0,1}, no two neighbouring digits are both non-zero, and sum digit_i*2^i equals the value.", "quantifier": "every N and every value", "why_tests_cant": "a wrap-around of the internal addition only happens at the very top of the range", "anchors": ["tachyon/math/base/big_int.h BigInt::ToNAF"]}
{"id": "C08", "title": "Montgomery reduction divides by R modulo the modulus", "statement": "For an odd modulus m<2^(64N) with the matching constant -m^-1 mod 2^64 and any x<m*2^(64N), MontgomeryReduce/FromMontgomery yields the canonical representative r<m with r*2^(64N) = x mod m.", "quantifier": "every N, every odd modulus, every input below m*R", "why_tests_cant": "the discarded-carry optimisation is only justified by an inequality over all inputs", "anchors": ["tachyon/math/base/big_int.h BigInt::FromMontgomery, MontgomeryReduce"]}
{"id": "C09", "title": "Prime-field arithmetic in Montgomery form is arithmetic modulo p", "statement": "Add, Sub, Double, Negate, Mul and Square of prime-field elements in Montgomery form return canonical elements (<p) representing the sum, difference, double, negation, product and square modulo p, on both the fast (spare-bit) and the slow multiplication path.", "quantifier": "every modulus admitted by the configuration, every pair of canonical elements", "why_tests_cant": "p^2 operand pairs of 254-bit elements", "anchors": ["tachyon/math/finite_fields/prime_field_fallback.h PrimeField::AddInPlace, SubInPlace, MulInPlace, SquareInPlace, DoFastMul, DoSlowMul", "tachyon/math/base/big_int.h Clamp"]}
{"id": "C10", "title": "32-bit Montgomery fields compute modulo p", "statement": "For 31-bit moduli (BabyBear, KoalaBear), To/FromMontgomery are inverse bijections on [0,p), and Add/Sub/Mul/Negate/Double of Montgomery words return canonical words representing the modular results.", "quantifier": "every odd modulus below 2^31 with its 2^32-inverse constant and all canonical words", "why_tests_cant": "2^62 operand pairs per operation", "anchors": ["tachyon/math/finite_fields/small_prime_field_mont.h", "tachyon/math/finite_fields/generator/prime_field_generator/small_prime_field_config.h.tpl AddMod, SubMod, ToMontgomery, FromMontgomery"]}
{"id": "C11", "title": "Mersenne-31 reduction is correct on every 64-bit product", "statement": "The Mersenne31 field's Reduce maps every 64-bit product of canonical elements to the canonical residue modulo 2^31-1, so Mul, Add and Sub are arithmetic modulo 2^31-1.", "quantifier": "all pairs of canonical elements", "why_tests_cant": "2^62 products; the shift-and-add trick has boundary residues", "anchors": ["tachyon/math/finite_fields/small_prime_field.h", "tachyon/math/finite_fields/mersenne31"]}
{"id": "C12", "title": "BigInt Montgomery inverse is the modular inverse", "statement": "MontgomeryInverse of a non-zero element returns its inverse in Montgomery form and terminates; for zero it reports failure.", "quantifier": "every odd prime modulus with the configuration's spare-bit property and every element", "why_tests_cant": "termination and the loop invariant range over all inputs", "anchors": ["tachyon/math/base/big_int.h BigInt::MontgomeryInverse"]}
{"id": "C13", "title": "The portable 64-bit subtract-with-borrow agrees with the builtin", "statement": "The fallback (non-builtin) SubWithBorrow on 64-bit words returns the difference modulo 2^64 and borrow 1 exactly when a < b + borrow_in.", "quantifier": "all word triples", "why_tests_cant": "2^129 inputs, and the fallback branch is not compiled on the tested hosts", "anchors": ["tachyon/math/base/arithmetics.h SubWithBorrow"]}
{"id": "C14", "title": "Exponentiation and scalar multiplication are iterated group operations", "statement": "x.Pow(e) equals the e-fold product of x, x.ScalarMul(e) equals the e-fold sum, and PowWithTable over a table of x^(2^i) agrees with Pow whenever the table is long enough, otherwise it fails; MultiScalarMul and LinearCombination are the elementwise products and the Horner sum, refusing mismatched sizes.", "quantifier": "every monoid, element and exponent (any width)", "why_tests_cant": "exponents are unbounded", "anchors": ["tachyon/math/base/semigroups.h MultiplicativeSemigroup::Pow, PowWithTable, AdditiveSemigroup::ScalarMul, MultiScalarMul, LinearCombination"]}
{"id": "C15", "title": "GetSuccessivePowers is independent of the number of threads", "statement": "GetSuccessivePowers(size, g, c) returns [c, c*g, c*g^2, ...] of length size for every thread count; the bit-reversed variant returns the same list in bit-reversed order.", "quantifier": "every size, every thread count/chunking, every generator and constant", "why_tests_cant": "thread counts and chunk boundaries are environment-dependent", "anchors": ["tachyon/math/base/semigroups.h GetSuccessivePowers, GetBitRevIndexSuccessivePowers", "tachyon/base/parallelize.h Parallelize"]}
{"id": "C16", "title": "BatchInverse inverts every non-zero entry, leaves zeros, for any chunking", "statement": "BatchInverse(groups, out, coeff) writes coeff*groups[i]^-1 wherever groups[i] is non-zero and leaves a zero output for zero entries, independent of how the work is split across threads; mismatched sizes are rejected.", "quantifier": "every input vector including zeros anywhere, every coefficient, every thread count", "why_tests_cant": "position and number of zeros interact with the prefix-product chain", "anchors": ["tachyon/math/base/groups.h MultiplicativeGroup::BatchInverse, DoBatchInverse"]}
{"id": "C17", "title": "RationalField denotes fractions", "statement": "Add/Sub/Mul/Div/Negate/Inverse/Square/Double on RationalField agree with the field operations on numerator/denominator; equality, IsZero, IsOne and IsMinusOne decide the value; BatchEvaluate yields coeff times the value.", "quantifier": "every pair of rationals with non-zero denominators", "why_tests_cant": "value-level predicates quantify over all representations of a value", "anchors": ["tachyon/math/base/rational_field.h"]}
{"id": "C18", "title": "Parallelize visits every element exactly once", "statement": "Parallelize and ParallelizeByChunkSize hand out chunks that are pairwise disjoint, in order, cover the container exactly, all of the announced chunk size except possibly the last, with chunk_offset*chunk_size the position of the chunk's first element; hence a mapped container equals the sequential map under any execution order of the chunks.", "quantifier": "every container size, chunk size, thread count, threshold and schedule", "why_tests_cant": "schedules and thread counts are not enumerable", "anchors": ["tachyon/base/parallelize.h", "tachyon/base/openmp_util.h GetNumElementsPerThread, GetSizePerThread"]}
{"id": "C19", "title": "ParallelizeResize behaves like vector::resize", "statement": "ParallelizeResize(v, n, x) leaves the first min(n, old) elements unchanged and sets the rest to x, without touching memory outside the container.", "quantifier": "every old and new size (growing and shrinking)", "why_tests_cant": "out-of-range spans are undefined behaviour that a passing test does not reveal", "anchors": ["tachyon/base/parallelize.h ParallelizeResize"]}
{"id": "C20", "title": "Endian-aware integer I/O round-trips", "statement": "Writing an 8/16/32/64-bit integer with a given endianness stores its bytes in that order and reading it back with the same endianness yields the same integer; the other bytes of the buffer are unchanged and the offset advances by the width.", "quantifier": "every buffer content, offset, width, endianness and value", "why_tests_cant": "full codec domain", "anchors": ["tachyon/base/buffer/buffer.cc", "tachyon/base/buffer/buffer.h", "tachyon/base/buffer/read_only_buffer.cc", "tachyon/base/buffer/read_only_buffer.h"]}
{"id": "C21", "title": "Serialisation of composite values round-trips", "statement": "For strings, vectors, arrays, structs written field by field and matrices, arbitrarily nested, writing then reading from the same offset returns an equal value, consumes exactly EstimateSize bytes and leaves whatever follows intact.", "quantifier": "all nested values and all trailing bytes", "why_tests_cant": "unbounded nesting and lengths", "anchors": ["tachyon/base/buffer/copyable.h", "tachyon/base/buffer/buffer.h", "tachyon/base/buffer/vector_buffer.cc"]}
{"id": "C22", "title": "Buffer accesses stay within bounds", "statement": "A read or write of n bytes at an offset succeeds only if offset+n fits in the buffer (after an allowed Grow), including when offset+n overflows; a failing operation leaves the content unchanged.", "quantifier": "every offset, length and buffer size up to 2^64", "why_tests_cant": "overflow needs offsets near 2^64", "anchors": ["tachyon/base/buffer/read_only_buffer.cc ReadOnlyBuffer::Read", "tachyon/base/buffer/read_only_buffer.h ReadPtrAt", "tachyon/base/buffer/buffer.cc"]}
{"id": "C23", "title": "WriteMany at an explicit offset lays its arguments out consecutively", "statement": "WriteManyAt(offset, a, b, ...) stores the encodings of a, b, ... one after another from offset, so that ReadManyAt(offset, ...) returns them.", "quantifier": "all argument lists and offsets", "why_tests_cant": "argument lists are arbitrary", "anchors": ["tachyon/base/buffer/buffer.h Buffer::WriteManyAt, WriteMany", "tachyon/base/buffer/read_only_buffer.h ReadManyAt"]}
{"id": "C24", "title": "circular_deque behaves as a double-ended sequence", "statement": "After any history of push/emplace/pop at both ends, insert, erase, resize, reserve, shrink_to_fit, clear, assign, copy, move and swap, the deque's contents, size, front/back, indexing and iteration equal those of the list obtained by the same history, and every access stays inside the allocated ring.", "quantifier": "every finite operation history and element type", "why_tests_cant": "wrap-around positions and capacities depend on the whole history", "anchors": ["tachyon/base/containers/circular_deque.h"]}
{"id": "C25", "title": "Range predicates describe the integer interval", "statement": "Contains(v) holds exactly for the values between the bounds (respecting inclusiveness), GetSize is the number of contained values, IsEmpty holds exactly when no value is contained, Intersect(a,b) contains exactly the common values.", "quantifier": "every bound pair and inclusiveness combination", "why_tests_cant": "full interval algebra", "anchors": ["tachyon/base/range.h"]}
{"id": "C26", "title": "Quadratic extension arithmetic is arithmetic modulo x^2-q", "statement": "Mul, Square (all three algorithms), Inverse, Norm, Conjugate, Add, Sub, Mul-by-base of QuadraticExtensionField agree with polynomial arithmetic modulo x^2-q, Inverse fails exactly on zero (q a non-residue) and otherwise returns the inverse.", "quantifier": "every base field, non-residue and operands", "why_tests_cant": "infinite families of towers", "anchors": ["tachyon/math/finite_fields/quadratic_extension_field.h"]}
{"id": "C27", "title": "Cubic extension arithmetic is arithmetic modulo x^3-q", "statement": "Mul (Karatsuba), Square (CH-SQR2) and Inverse of CubicExtensionField agree with polynomial arithmetic modulo x^3-q; Inverse returns a true inverse whenever the norm is non-zero.", "quantifier": "every base field, non-residue and operands", "why_tests_cant": "algebraic identities over all operands", "anchors": ["tachyon/math/finite_fields/cubic_extension_field.h"]}
{"id": "C28", "title": "Quartic extension arithmetic is arithmetic modulo x^4-q", "statement": "Toom-Cook Mul and Square of QuarticExtensionField agree with schoolbook multiplication modulo x^4-q whenever 2,3,5 are invertible; Inverse is a true inverse when the norm is invertible.", "quantifier": "every base field of suitable characteristic and operands", "why_tests_cant": "seven-point interpolation identities over all operands", "anchors": ["tachyon/math/finite_fields/quartic_extension_field.h"]}
{"id": "C29", "title": "In-place operators tolerate aliasing", "statement": "x *= x (MulInPlace with the operand aliasing the receiver) gives the same value as x * x for every extension-field type.", "quantifier": "every operand and every tower level", "why_tests_cant": "tests multiply distinct objects", "anchors": ["tachyon/math/finite_fields/quadratic_extension_field.h MulInPlace, DoMul", "tachyon/math/finite_fields/cubic_extension_field.h", "tachyon/math/finite_fields/quartic_extension_field.h"]}
{"id": "C30", "title": "Sparse Miller-loop multiplications equal dense ones", "statement": "MulInPlaceBy034/014 on Fp6/Fp12 and MulInPlaceBy1/01 on cubic Fp6 equal multiplication by the dense element with the omitted coefficients zero.", "quantifier": "every operand", "why_tests_cant": "identities over all operands", "anchors": ["tachyon/math/finite_fields/fp12.h", "tachyon/math/finite_fields/fp6.h"]}
{"id": "C31", "title": "Cyclotomic squaring and inversion agree with the generic ones on the cyclotomic subgroup", "statement": "On elements of the cyclotomic subgroup FastCyclotomicSquare equals Square and FastCyclotomicInverse equals Inverse.", "quantifier": "every Fp12 tower with p = 1 mod 6, every cyclotomic element", "why_tests_cant": "membership is a polynomial condition over all elements", "anchors": ["tachyon/math/finite_fields/cyclotomic_multiplicative_subgroup.h", "tachyon/math/finite_fields/fp12.h", "tachyon/math/finite_fields/quadratic_extension_field.h"]}
{"id": "C32", "title": "Dense polynomial ring operations are polynomial arithmetic and keep the canonical form", "statement": "Add, Sub, Negate, Mul, scalar Mul/Div of dense polynomials give the coefficient sequence of the mathematical result, never with a zero leading coefficient; equality of representations is equality of polynomials.", "quantifier": "every pair of coefficient vectors", "why_tests_cant": "cancellation patterns of leading terms are unbounded", "anchors": ["tachyon/math/polynomials/univariate/univariate_polynomial_ops.h", "tachyon/math/polynomials/univariate/univariate_dense_coefficients.h"]}
{"id": "C33", "title": "Polynomial division satisfies the division identity", "statement": "DivMod(f,g) fails exactly when g is zero, otherwise f = q*g + r with r zero or deg r < deg g.", "quantifier": "every pair of polynomials with a nonzero dividend (a zero dividend is C75)", "why_tests_cant": "degrees are unbounded; zero operands are special-cased", "anchors": ["tachyon/math/polynomials/univariate/univariate_polynomial_ops.h Divide, DivMod, Mod"]}
{"id": "C34", "title": "Dense evaluation equals the sum of terms for every chunking", "statement": "Evaluate(x) of a dense polynomial equals sum c_i x^i for every thread count.", "quantifier": "every polynomial, point, thread count", "why_tests_cant": "thread counts and chunk boundaries", "anchors": ["tachyon/math/polynomials/univariate/univariate_dense_coefficients.h Evaluate, DoEvaluate, HornerEvaluate"]}
{"id": "C35", "title": "Sparse polynomial operations agree with the dense ones", "statement": "Add, Sub, Mul, Negate, coefficient lookup and conversion to dense of sparse polynomials agree with the dense/mathematical operations and keep terms sorted by degree with non-zero coefficients.", "quantifier": "every pair of sparse polynomials", "why_tests_cant": "merge/cancellation patterns unbounded", "anchors": ["tachyon/math/polynomials/univariate/univariate_polynomial_ops.h", "tachyon/math/polynomials/univariate/univariate_sparse_coefficients.h"]}
{"id": "C36", "title": "Sparse evaluation equals the sum of terms", "statement": "Evaluate(x) of a sparse polynomial equals sum c_i x^(d_i), and the value of its dense form.", "quantifier": "every polynomial of degree below the order of the prime field, and every point (higher degrees are C76)", "why_tests_cant": "degrees and term patterns are unbounded", "anchors": ["tachyon/math/polynomials/univariate/univariate_sparse_coefficients.h Evaluate"]}
{"id": "C37", "title": "FromRoots and Lagrange interpolation produce the announced polynomial", "statement": "FromRoots(r) is the product of (X-r_i); LagrangeInterpolate(points, evals) for distinct points returns a polynomial of degree < n taking the given values, independent of threads, and rejects mismatched sizes.", "quantifier": "every root list; every list of distinct points and values; every chunking", "why_tests_cant": "unbounded lengths", "anchors": ["tachyon/math/polynomials/univariate/univariate_dense_coefficients.h FromRoots", "tachyon/math/polynomials/univariate/lagrange_interpolation.h"]}
{"id": "C38", "title": "Fold computes even + r*odd", "statement": "Fold(r) of a polynomial f(X)=f_e(X^2)+X f_o(X^2) returns f_e + r f_o, without reading outside the coefficient vector.", "quantifier": "every sparse polynomial, every dense polynomial with an even number of coefficients (odd is C78), and r", "why_tests_cant": "an out-of-bounds read is silent", "anchors": ["tachyon/math/polynomials/univariate/univariate_dense_coefficients.h Fold", "tachyon/math/polynomials/univariate/univariate_sparse_coefficients.h Fold"]}
{"id": "C39", "title": "Radix-2 FFT evaluates the polynomial on the coset", "statement": "FFT(f) over a radix-2 domain with generator g and offset h returns [f(h), f(h g), ..., f(h g^(n-1))] for every polynomial with at most n coefficients, whether or not the degree-aware shortcut is taken.", "quantifier": "every domain size 2^k, every field with a 2^k-th root of unity, every offset and polynomial", "why_tests_cant": "sizes and shortcut thresholds are unbounded", "anchors": ["tachyon/math/polynomials/univariate/radix2_evaluation_domain.h", "tachyon/math/polynomials/univariate/evaluations_utils.h", "tachyon/math/polynomials/univariate/univariate_evaluation_domain.h"]}
{"id": "C40", "title": "IFFT inverts FFT", "statement": "IFFT(FFT(f)) = f and FFT(IFFT(e)) = e over every radix-2 domain and coset.", "quantifier": "every domain, polynomial and evaluation vector", "why_tests_cant": "as above", "anchors": ["tachyon/math/polynomials/univariate/radix2_evaluation_domain.h", "tachyon/math/polynomials/univariate/univariate_evaluation_domain.h"]}
{"id": "C41", "title": "Lagrange coefficients interpolate", "statement": "EvaluateAllLagrangeCoefficients(tau) returns the values L_i(tau), so that sum f(h g^i) L_i(tau) = f(tau) for every polynomial of degree < n, both for tau inside and outside the domain, for every chunking; EvaluatePartialLagrangeCoefficients is its sub-range.", "quantifier": "every domain, tau and range", "why_tests_cant": "tau inside/outside, chunk recurrences", "anchors": ["tachyon/math/polynomials/univariate/univariate_evaluation_domain.h EvaluateAllLagrangeCoefficients, EvaluatePartialLagrangeCoefficients"]}
{"id": "C42", "title": "Vanishing and filter polynomials", "statement": "GetVanishingPolynomial vanishes exactly on the coset and EvaluateVanishingPolynomial is its value; GetFilterPolynomial(sub) of a domain without offset is 1 on the subdomain (a subgroup or a coset in it) and 0 on the rest of the domain, it aborts exactly when the subdomain is not contained, and EvaluateFilterPolynomial(sub, tau) is its value at tau when the subdomain is a subgroup.", "quantifier": "every domain, coset, subdomain and tau", "why_tests_cant": "cosets of cosets are rarely tested", "anchors": ["tachyon/math/polynomials/univariate/univariate_evaluation_domain.h GetVanishingPolynomial, EvaluateVanishingPolynomial, GetFilterPolynomial, EvaluateFilterPolynomial"]}
{"id": "C43", "title": "Mixed-radix FFT evaluates the polynomial", "statement": "FFT over a mixed-radix domain of size 2^s q^t returns the evaluations of the polynomial on the domain.", "quantifier": "every size 2^s q^t", "why_tests_cant": "tests only exercise power-of-two sizes", "anchors": ["tachyon/math/polynomials/univariate/mixed_radix_evaluation_domain.h SerialFFT"]}
{"id": "C44", "title": "The twiddle cache returns complete tables in every history", "statement": "GetItem(domain, packed_vec_only) returns tables that contain everything the caller asked for, whatever requests were made before.", "quantifier": "every history of requests", "why_tests_cant": "depends on the order of requests in the whole process", "anchors": ["tachyon/math/polynomials/univariate/radix2_twiddle_cache.h GetItem"]}
{"id": "C45", "title": "Evaluation-form arithmetic is pointwise", "statement": "Add/Sub/Mul/Div/Negate on UnivariateEvaluations correspond pointwise to the operations on the values, treating the empty vector as the zero polynomial; division reports failure exactly when the divisor is empty, or the dividend is non-empty and the sizes differ or a divisor value is zero; vectors over the same domain are equal exactly when all values are.", "quantifier": "every pair of evaluation vectors", "why_tests_cant": "sizes and zero representations", "anchors": ["tachyon/math/polynomials/univariate/univariate_evaluations_ops.h", "tachyon/math/polynomials/univariate/univariate_evaluations.h"]}
{"id": "C46", "title": "Jacobian point arithmetic is the curve's group law", "statement": "Add (Jacobian+Jacobian, Jacobian+affine, affine+affine), Double, Negate and equality (pure and in place) on Jacobian points of y^2=x^3+b represent the affine chord-and-tangent law, including identity, doubling and inverse cases, and stay on the curve; on y^2=x^3+ax+b with a != 0 the same holds of Add for different points (doubling there is C84).", "quantifier": "every field of characteristic other than 2, every curve, all points and all representatives of them", "why_tests_cant": "coordinate identities over all points and representatives", "anchors": ["tachyon/math/elliptic_curves/short_weierstrass/jacobian_point_impl.h", "tachyon/math/elliptic_curves/short_weierstrass/jacobian_point.h"]}
{"id": "C47", "title": "Projective point arithmetic is the curve's group law", "statement": "Add (projective, affine right operand), Double, affine DoubleProjective, Negate and equality on homogeneous projective points of y^2=x^3+ax+b represent the affine chord-and-tangent law, including identity, doubling and inverse cases, and stay on the curve; the in-place forms agree.", "quantifier": "every curve, all points and representations", "why_tests_cant": "coordinate identities over all points", "anchors": ["tachyon/math/elliptic_curves/short_weierstrass/projective_point_impl.h", "tachyon/math/elliptic_curves/short_weierstrass/projective_point.h"]}
{"id": "C48", "title": "XYZZ point arithmetic is the curve's group law", "statement": "Add (XYZZ, affine right operand), Double, affine DoubleXYZZ, Negate and equality on extended Jacobian (XYZZ) points represent the affine chord-and-tangent law, keep zz^3 = zzz^2 and stay on the curve; the in-place forms agree.", "quantifier": "every curve, all points and representations", "why_tests_cant": "coordinate identities over all points", "anchors": ["tachyon/math/elliptic_curves/short_weierstrass/point_xyzz_impl.h", "tachyon/math/elliptic_curves/short_weierstrass/affine_point_impl.h"]}
{"id": "C49", "title": "Point conversions preserve the point", "statement": "Conversions from affine, Jacobian and projective points to every other representation preserve the represented point (to affine: on curves with b != 0), and BatchNormalize of Jacobian and projective points equals mapping ToAffine for every thread count below 128, and is refused when the sizes differ.", "quantifier": "every point and representation, every thread count below 128", "why_tests_cant": "representations with Z=-1 or other special values", "anchors": ["tachyon/math/elliptic_curves/short_weierstrass/jacobian_point.h", "tachyon/math/elliptic_curves/short_weierstrass/point_xyzz.h", "tachyon/math/elliptic_curves/short_weierstrass/projective_point.h", "tachyon/math/elliptic_curves/short_weierstrass/affine_point.h"]}
{"id": "C50", "title": "Pippenger MSM equals the sum of scalar multiples", "statement": "Pippenger and its parallel adapter return sum s_i*P_i for every window size, digit representation (signed or unsigned windows), strategy and thread count, and reject size mismatches.", "quantifier": "every commutative group, bases, scalars, strategies", "why_tests_cant": "signed-digit carries at the top window; chunking", "anchors": ["tachyon/math/elliptic_curves/msm/algorithms/pippenger/pippenger.h", "tachyon/math/elliptic_curves/msm/algorithms/pippenger/pippenger_base.h", "tachyon/math/elliptic_curves/msm/algorithms/pippenger/pippenger_adapter.h"]}
{"id": "C51", "title": "Fixed-base MSM equals scalar multiplication", "statement": "FixedBaseMSM.ScalarMul(s) = s*base for every scalar and window configuration.", "quantifier": "every scalar, modulus width and window", "why_tests_cant": "last-window handling", "anchors": ["tachyon/math/elliptic_curves/msm/fixed_base_msm.h"]}
{"id": "C52", "title": "GLV decomposition is correct and short", "statement": "For each of the four curve configurations, GLV::Decompose(k) returns k1, k2 with k1 + lambda*k2 = k (mod r), both below 2^128 in absolute value.", "quantifier": "every scalar (and every configuration whose rows vanish modulo r)", "why_tests_cant": "2^254 scalars; truncating division of signed numbers", "anchors": ["tachyon/math/elliptic_curves/msm/glv.h", "tachyon/math/base/bit_iterator.h", "tachyon/math/base/gmp/bit_traits.h"]}
{"id": "C53", "title": "Binary Merkle tree: honest openings verify", "statement": "After Commit(leaves) with 2^k leaves, k >= 1, and 2^l leaves per parallel subtree, l >= 1, the opening proof created for any index verifies against the root with the hash of that leaf, and the root is the recursive pairwise hash of the leaves, whatever the storage held before and whatever the order of the parallel loops. Leaf counts that are not powers of two or exceed the storage are rejected.", "quantifier": "every leaf vector of power-of-two length, index, hash function and parallelisation threshold", "why_tests_cant": "sizes and thresholds are unbounded", "anchors": ["tachyon/crypto/commitments/merkle_tree/binary_merkle_tree/binary_merkle_tree.h"]}
{"id": "C54", "title": "Binary Merkle tree: openings are binding", "statement": "If two different leaf hashes both verify against the same root with proofs of the same shape (same length and side bits), then an explicit collision of the parent hash is found in the proofs.", "quantifier": "every hash function, root, proofs", "why_tests_cant": "a security statement over all adversarial proofs", "anchors": ["tachyon/crypto/commitments/merkle_tree/binary_merkle_tree/binary_merkle_tree.h DoVerifyOpeningProof"]}
{"id": "C55", "title": "Mixed-matrix commitment: honest openings verify", "statement": "For every batch of non-empty matrices in any order, in which heights that round up to the same power of two are equal, and every index that addresses an existing row of each matrix (every index below the tallest height when the heights are powers of two), CreateOpeningProof(index) returns the addressed rows and a proof that VerifyOpeningProof accepts against the commitment.", "quantifier": "every batch, index, hash and compression function", "why_tests_cant": "batch shapes are unbounded", "anchors": ["tachyon/crypto/commitments/merkle_tree/field_merkle_tree/field_merkle_tree.h", "tachyon/crypto/commitments/merkle_tree/field_merkle_tree/field_merkle_tree_mmcs.h"]}
{"id": "C56", "title": "Mixed-matrix commitment: openings are binding", "statement": "Two accepted openings with the same heights, index, row widths and a proof length of log2 of the tallest padded height that differ in an opened row or in the proof yield a collision of the hash or the compression function among the calls the verifier makes.", "quantifier": "every adversarial pair of openings", "why_tests_cant": "security statement", "anchors": ["tachyon/crypto/commitments/merkle_tree/field_merkle_tree/field_merkle_tree_mmcs.h DoVerifyOpeningProof"]}
{"id": "C57", "title": "Sponge absorption is independent of how the input is split", "statement": "Absorb takes its elements one by one (permuting when a block is full or when switching from squeezing); hence Absorb(x);Absorb(y) leaves the sponge in the same state as Absorb(x++y) for every non-empty y.", "quantifier": "every permutation, rate, input split and start state", "why_tests_cant": "all splits and rates", "anchors": ["tachyon/crypto/hashes/sponge/poseidon/poseidon_sponge_base.h Absorb, AbsorbInternal"]}
{"id": "C58", "title": "Sponge squeezing is a stream", "statement": "Squeezing n elements yields what n single-element squeezes yield, and squeezing m and then n elements yields the same elements as squeezing m+n at once, as long as no single request made in the middle of a block asks for exactly the rate (see C97).", "quantifier": "every permutation, rate, state, m, n", "why_tests_cant": "all block offsets", "anchors": ["tachyon/crypto/hashes/sponge/poseidon/poseidon_sponge_base.h SqueezeNativeFieldElements, SqueezeInternal"]}
{"id": "C59", "title": "Duplex challenger: challenges are a deterministic function of the transcript and always depend on pending observations", "statement": "No history of Observe and Sample is undefined, and the buffers never exceed rate and width. For every transcript (rounds of observations followed by samples) the challenges are exactly the lanes, last first, of the state in which every observation has been absorbed block by block, followed by its iterates under the permutation: each challenge depends on all earlier observations, and pending outputs are dropped by an observation.", "quantifier": "every history of observe/sample operations", "why_tests_cant": "histories", "anchors": ["tachyon/crypto/challenger/duplex_challenger.h", "tachyon/crypto/challenger/challenger.h"]}
{"id": "C60", "title": "Grinding returns a valid witness under every schedule", "statement": "Grind(bits) returns a witness that CheckWitness accepts on the verifier's identical challenger; it aborts only if no witness exists in the range.", "quantifier": "every schedule of the parallel search, range and chunking", "why_tests_cant": "thread schedules", "anchors": ["tachyon/crypto/challenger/challenger.h Grind, CheckWitness, SampleBits"]}
{"id": "C61", "title": "FRI folding is consistent between prover and verifier", "statement": "FoldMatrix applied to all rows equals FoldRow at every index, folding the evaluations of f over a coset gives the evaluations of f_e + beta f_o over the squared coset, and an honest commit phase is accepted by VerifyQuery at every index.", "quantifier": "every polynomial, domain size, beta, index", "why_tests_cant": "unbounded sizes", "anchors": ["tachyon/crypto/commitments/fri/prove.h", "tachyon/crypto/commitments/fri/verify.h", "tachyon/crypto/commitments/fri/two_adic_fri.h"]}
{"id": "C62", "title": "The permutation cycle store is the union-find of the copy constraints", "statement": "After any sequence of MergeCycle calls, CheckSameCycle(a,b) holds exactly when a and b are connected by the merged pairs; the mapping is a permutation whose cycles are exactly the classes; GetCycleSize is the class size.", "quantifier": "every grid size and history of merges", "why_tests_cant": "histories", "anchors": ["tachyon/zk/plonk/permutation/cycle_store.h", "tachyon/zk/plonk/permutation/cycle_store.cc"]}
{"id": "C63", "title": "Lookup permutation is a valid halo2 witness", "statement": "PermuteExpressionPair succeeds exactly when every input value occurs in the table (counting usable rows), and then A' and S' are permutations of the inputs and table, with A'_0=S'_0 and for each row A'_i=S'_i or A'_i=A'_(i-1).", "quantifier": "every input and table vector", "why_tests_cant": "multiplicities", "anchors": ["tachyon/zk/lookup/halo2/permute_expression_pair.h"]}
{"id": "C64", "title": "Selector compression preserves selector semantics", "statement": "After compression, each selector's substituted expression is non-zero at a row exactly when the selector was enabled there (characteristic larger than the number of selectors in a combination); every selector receives exactly one assignment.", "quantifier": "every selector table, degrees and maximum degree", "why_tests_cant": "combinatorics of selectors", "anchors": ["tachyon/zk/plonk/constraint_system/selector_compressor.h", "tachyon/zk/plonk/constraint_system/exclusion_matrix.h"]}
{"id": "C65", "title": "Selector compression respects the degree bound", "statement": "Substituting the compressed expressions never raises a gate above the degree of the constraint system, which the compression takes as its limit. (Refuted: the limit is checked with the degree of the first selector of a combination only. It holds when the selectors come in order of non-increasing degree.)", "quantifier": "every selector table, degrees and maximum degree", "why_tests_cant": "needs selectors of different degrees in one combination", "anchors": ["tachyon/zk/plonk/constraint_system/selector_compressor.h CombineSimpleSelectors"]}
{"id": "C66", "title": "Bit utilities compute exact logarithms, alignments and bit reversals", "statement": "IsPowerOfTwo recognises exactly the powers of two; AlignDown/AlignUp return the nearest multiple of a power-of-two alignment; Log2Floor/Log2Ceiling/CheckedLog2 bracket the argument by powers of two (-1 for zero); ReverseBitsLen(x,k) mirrors the lowest k bits and is an involution for every k from 0 to 64.", "quantifier": "every word, width, alignment and bit length", "why_tests_cant": "2^64 words times 65 lengths", "anchors": ["tachyon/base/bits.h", "tachyon/base/bits.cc BitRev"]}
{"id": "C67", "title": "The extended gcd never overflows and returns Bezout coefficients", "statement": "For non-negative int64 inputs EGCD::Compute terminates without signed overflow and returns (s, t, r) with r the gcd and s*x + t*y = r; hence the inverse of a non-Montgomery 32-bit field element is defined for every modulus, and is the modular inverse whenever one exists.", "quantifier": "all pairs of non-negative int64 values; all 31-bit moduli and elements", "why_tests_cant": "worst-case quotient sequences need Fibonacci-like inputs", "anchors": ["tachyon/math/base/egcd.h", "tachyon/math/finite_fields/small_prime_field.h Inverse"]}
{"id": "C68", "title": "Every generated 32-bit field multiplies modulo its modulus", "statement": "For every modulus accepted by the generator, with or without a user-supplied reduction, Add, Sub, Negate and Mul of a non-Montgomery 32-bit field are arithmetic modulo the modulus.", "quantifier": "all moduli, reductions and canonical pairs", "why_tests_cant": "depends on the configured reduction and on the modulus width", "anchors": ["tachyon/math/finite_fields/generator/prime_field_generator/prime_field_generator.cc", "tachyon/math/finite_fields/generator/prime_field_generator/small_prime_field_config.h.tpl Reduce", "tachyon/math/finite_fields/small_prime_field.h"]}
{"id": "C69", "title": "A deque's own element may be appended to it", "statement": "push_back(d[i]) appends a copy of element i, also when the push makes the deque reallocate its buffer.", "quantifier": "every reachable deque and index", "why_tests_cant": "needs the reallocating case and a memory checker", "anchors": ["tachyon/base/containers/circular_deque.h circular_deque::emplace_back, ExpandCapacityIfNecessary"]}
{"id": "C70", "title": "FrobeniusMap(e) is exponentiation by p^e", "statement": "For every element x of Fp2, Fp3, Fp4 (over Fp2 with non-residue u, or quartic over Fp), Fp6 (cubic over Fp2 or quadratic over Fp3) and Fp12, and every e, FrobeniusMap(e) returns x^(p^e).", "quantifier": "every tower, element and exponent e, including e beyond the degree", "why_tests_cant": "the tables are derived from the non-residues of each configuration; tests compare a few levels of a few curves", "anchors": ["tachyon/math/finite_fields/fp2.h", "tachyon/math/finite_fields/fp3.h", "tachyon/math/finite_fields/fp4.h", "tachyon/math/finite_fields/fp6.h", "tachyon/math/finite_fields/fp12.h", "tachyon/math/finite_fields/quadratic_extension_field.h FrobeniusMapInPlace", "tachyon/math/finite_fields/cubic_extension_field.h FrobeniusMapInPlace", "tachyon/math/finite_fields/quartic_extension_field.h FrobeniusMapInPlace"]}
{"id": "C71", "title": "CyclotomicPow equals Pow on the cyclotomic subgroup", "statement": "For every element x of the cyclotomic subgroup of Fp12 and every n-limb exponent e, x.CyclotomicPow(e) is x^e.", "quantifier": "every tower, cyclotomic element and exponent", "why_tests_cant": "the exponent space is exhausted only by proof; the failing exponent is a single value", "anchors": ["tachyon/math/finite_fields/cyclotomic_multiplicative_subgroup.h CyclotomicPow, DoCyclotomicPow", "tachyon/math/base/big_int.h ToNAF"]}
{"id": "C72", "title": "Generated and hand-written MulByNonResidue multiply by the non-residue", "statement": "The code emitted by the extension-field generator for an integer non-residue, the shift for (0,1) and (0,1,0), and the overrides of bn254 and bls12_381 return the product of the argument and the non-residue.", "quantifier": "every 64-bit non-zero integer (except -2^63) and every field element", "why_tests_cant": "the generator is run on a handful of configurations only", "anchors": ["tachyon/math/finite_fields/generator/generator_util.cc GenerateFastMultiplication", "tachyon/math/finite_fields/generator/ext_field_generator/ext_field_generator.cc", "tachyon/math/elliptic_curves/bn/bn254/BUILD.bazel", "tachyon/math/elliptic_curves/bls12/bls12_381/BUILD.bazel"]}
{"id": "C73", "title": "The generated non-residue-is-minus-one flag is set only for -1", "statement": "kNonResidueIsMinusOne, which selects the squaring formula valid only for x^2 = -1, is emitted as true exactly when the non-residue is -1.", "quantifier": "every list of non-residue coefficients", "why_tests_cant": "no shipped configuration has first coefficient -1 and another non-zero coefficient", "anchors": ["tachyon/math/finite_fields/generator/ext_field_generator/ext_field_generator.cc GenerateConfigHdr", "tachyon/math/finite_fields/quadratic_extension_field.h DoSquareInPlace"]}
{"id": "C74", "title": "FrobeniusMap on a quadratic Fp4 is exponentiation by p^e for any non-residue of Fp2", "statement": "Fp4 accepts any non-residue of Fp2 (the Mersenne-31 Fp4 uses 2+i); FrobeniusMap(e) returns x^(p^e) there too.", "quantifier": "every prime, every non-residue of Fp2", "why_tests_cant": "needs the coefficient identity z^((p-1)/2); no unit test calls FrobeniusMap on that field", "anchors": ["tachyon/math/finite_fields/fp4.h Fp4Config::Init", "tachyon/math/circle/m31/BUILD.bazel", "tachyon/math/finite_fields/quadratic_extension_field.h FrobeniusMapInPlace"]}
{"id": "C75", "title": "Dividing the zero polynomial gives quotient and remainder zero", "statement": "DivMod(0, g) for nonzero g is (0, 0); dividing by zero has no result, also for a zero dividend.", "quantifier": "every divisor", "why_tests_cant": "the zero operand is special-cased in several overloads", "anchors": ["tachyon/math/polynomials/univariate/univariate_polynomial_ops.h Divide, Div, Mod"]}
{"id": "C76", "title": "Sparse evaluation is right for degrees above the field order", "statement": "Evaluate(x) of a sparse polynomial equals sum c_i x^(d_i) also when a degree is at least the order of the prime field (allowed up to MaxDegree).", "quantifier": "every polynomial, degree and point", "why_tests_cant": "needs degrees at least the characteristic", "anchors": ["tachyon/math/polynomials/univariate/univariate_sparse_coefficients.h Evaluate"]}
{"id": "C77", "title": "Lagrange interpolation rejects inputs without an answer", "statement": "LagrangeInterpolate with a repeated point and contradictory values, or with no points, reports failure instead of returning a polynomial or reading outside its buffers.", "quantifier": "every list of points and values", "why_tests_cant": "malformed inputs", "anchors": ["tachyon/math/polynomials/univariate/lagrange_interpolation.h"]}
{"id": "C78", "title": "Fold of a dense polynomial with an odd number of coefficients", "statement": "Fold(r) of a dense polynomial with an odd number of coefficients treats the missing last odd coefficient as zero.", "quantifier": "every odd-length coefficient vector and r", "why_tests_cant": "an out-of-bounds read is silent", "anchors": ["tachyon/math/polynomials/univariate/univariate_dense_coefficients.h Fold"]}
{"id": "C79", "title": "Filter polynomials of coset domains", "statement": "Also when the domain or the subdomain is a coset, GetFilterPolynomial(sub) is 1 on the subdomain and 0 on the rest of the domain, and EvaluateFilterPolynomial(sub, tau) is its value at tau.", "quantifier": "every coset, contained coset and tau", "why_tests_cant": "the tests only use domains without offset", "anchors": ["tachyon/math/polynomials/univariate/univariate_evaluation_domain.h GetFilterPolynomial, EvaluateFilterPolynomial"]}
{"id": "C80", "title": "Equality of evaluation vectors is an equivalence relation", "statement": "operator== on UnivariateEvaluations is reflexive, symmetric and transitive.", "quantifier": "all triples of evaluation vectors of any sizes", "why_tests_cant": "relates triples of values, including the two representations of zero", "anchors": ["tachyon/math/polynomials/univariate/univariate_evaluations.h operator=="]}
{"id": "C81", "title": "ComputeAdicity returns the multiplicity of the base", "statement": "ComputeAdicity(k, n) is the unique a with n = k^a t and k not dividing t.", "quantifier": "every base k >= 2 and every n > 0", "why_tests_cant": "unbounded inputs", "anchors": ["tachyon/math/finite_fields/prime_field_util.cc ComputeAdicity"]}
{"id": "C82", "title": "ComputeTrace returns the cofactor", "statement": "ComputeTrace(k, n) is the t with n = k^a t and k not dividing t.", "quantifier": "every base k >= 2 and every n > 0", "why_tests_cant": "unbounded inputs", "anchors": ["tachyon/math/finite_fields/prime_field_util.cc ComputeTrace"]}
{"id": "C83", "title": "The default degree bound of a mixed-radix domain is the order of its largest subgroup minus one", "statement": "MaxDegreeForMixedRadixEvaluationDomain<F>() is base^adicity * 2^two_adicity - 1, so that every polynomial of such a domain can be held.", "quantifier": "every field configuration", "why_tests_cant": "ranges over all field configurations; tests use explicit bounds", "anchors": ["tachyon/math/polynomials/univariate/mixed_radix_evaluation_domain.h MaxDegreeForMixedRadixEvaluationDomain"]}
{"id": "C84", "title": "Jacobian doubling on curves with a != 0", "statement": "Double of a Jacobian point on y^2=x^3+ax+b with a != 0 is the tangent doubling of the represented point.", "quantifier": "every such curve and point", "why_tests_cant": "the shipped curves all have a = 0, so no test runs this branch", "anchors": ["tachyon/math/elliptic_curves/short_weierstrass/jacobian_point_impl.h"]}
{"id": "C85", "title": "Conversions from XYZZ preserve the point", "statement": "ToAffine, ToJacobian and ToProjective of an XYZZ point represent the same point, and BatchNormalize equals mapping ToAffine.", "quantifier": "every XYZZ point, including those with zz = 1 and zzz = -1", "why_tests_cant": "zz = 1 with zzz = -1 is hit with negligible probability on large fields", "anchors": ["tachyon/math/elliptic_curves/short_weierstrass/point_xyzz.h"]}
{"id": "C86", "title": "IsOnCurve and affine equality", "statement": "IsOnCurve accepts exactly the finite points of the curve in each of the four representations (never infinity); affine equality, Negate and IsZero agree with the represented points.", "quantifier": "every curve, point and representative", "why_tests_cant": "all representatives of all points", "anchors": ["tachyon/math/elliptic_curves/short_weierstrass/sw_curve.h", "tachyon/math/elliptic_curves/short_weierstrass/affine_point.h"]}
{"id": "C87", "title": "Every curve point has an affine form", "statement": "Every point of the curve is represented by some affine point, and ToAffine finds it.", "quantifier": "every curve and point", "why_tests_cant": "curves with b = 0", "anchors": ["tachyon/math/elliptic_curves/short_weierstrass/affine_point.h", "tachyon/math/elliptic_curves/short_weierstrass/jacobian_point.h"]}
{"id": "C88", "title": "GLV multiplication equals scalar multiplication", "statement": "GLV::Mul(P,k) = k*P. (Refuted: when k1 and k2 have different limb counts the bits of k2 are read misaligned, for example for k = 2^127 or k = lambda on BN254 G1. Proved when the limb counts agree or k2 is 0; the exact wrong value is also proved.)", "quantifier": "every scalar and point", "why_tests_cant": "k1 and k2 of different limb counts are astronomically rare for random scalars", "anchors": ["tachyon/math/elliptic_curves/msm/glv.h", "tachyon/math/base/bit_iterator.h", "tachyon/math/base/gmp/bit_traits.h"]}
{"id": "C89", "title": "An MSM leaves the process's thread limit as it was", "statement": "After RunWithStrategy the OpenMP thread limit is what it was before. (Refuted for kParallelWindowAndTerm, which restores the limit from the value it has just overwritten; later parallel loops run with 2 threads. Proved for the other strategies.)", "quantifier": "every strategy, thread limit and window count", "why_tests_cant": "the effect is only visible as slower unrelated code", "anchors": ["tachyon/math/elliptic_curves/msm/algorithms/pippenger/pippenger_adapter.h RunWithStrategy"]}
{"id": "C90", "title": "Binary Merkle tree: Commit is defined on every leaf vector it accepts", "statement": "Commit never reads or writes outside the storage for any leaf count and parallelisation threshold that it does not reject.", "quantifier": "every power-of-two leaf count and threshold", "why_tests_cant": "the failing settings read one element past a vector and usually appear to work", "anchors": ["tachyon/crypto/commitments/merkle_tree/binary_merkle_tree/binary_merkle_tree.h DoCommit, BuildTreeFromLeaves, BuildTree"]}
{"id": "C91", "title": "Mixed-matrix commitment: every index below the tallest height can be opened", "statement": "For every batch the commitment accepts and every index below the tallest height, CreateOpeningProof reads only existing rows.", "quantifier": "every accepted batch, index", "why_tests_cant": "needs a height that is not a power of two together with a large index", "anchors": ["tachyon/crypto/commitments/merkle_tree/field_merkle_tree/field_merkle_tree_mmcs.h DoCreateOpeningProof"]}
{"id": "C92", "title": "Mixed-matrix commitment: the verifier rejects openings of the wrong shape", "statement": "VerifyOpeningProof accepts no opening whose row widths or proof length differ from those of the committed matrices, so binding needs no check by the caller.", "quantifier": "every adversarial opening and proof", "why_tests_cant": "adversarial shapes", "anchors": ["tachyon/crypto/commitments/merkle_tree/field_merkle_tree/field_merkle_tree_mmcs.h DoVerifyOpeningProof, CountLayers"]}
{"id": "C93", "title": "Mixed-matrix commitment: the commitment covers every matrix in the batch", "statement": "Commitments to batches that differ in one matrix differ, or a collision is exhibited, in every build mode.", "quantifier": "every batch", "why_tests_cant": "the check that would notice is compiled out of release builds", "anchors": ["tachyon/crypto/commitments/merkle_tree/field_merkle_tree/field_merkle_tree.h DoBuildCpu"]}
{"id": "C94", "title": "Absorbing an empty input is a no-op", "statement": "Absorb of an empty input leaves the sponge observably unchanged.", "quantifier": "every sponge state", "why_tests_cant": "needs an empty input after a full block", "anchors": ["tachyon/crypto/hashes/sponge/poseidon/poseidon_sponge_base.h Absorb"]}
{"id": "C95", "title": "Padding-free sponge: equal-length collisions are inner collisions", "statement": "Hashing is defined for every input; two different inputs of the same length that end in the same state lead, at some earlier block, to different states that agree on all lanes not overwritten by the next block.", "quantifier": "every injective permutation, rate, width and pair of inputs", "why_tests_cant": "collision resistance reductions are about all inputs", "anchors": ["tachyon/crypto/hashes/sponge/padding_free_sponge.h DoHash"]}
{"id": "C96", "title": "Padding-free sponge separates inputs of different lengths", "statement": "Inputs of different lengths do not collide by construction.", "quantifier": "every permutation", "why_tests_cant": "structural collisions for all permutations", "anchors": ["tachyon/crypto/hashes/sponge/padding_free_sponge.h DoHash"]}
{"id": "C97", "title": "A squeeze never repeats elements of the block it starts in", "statement": "Squeezing in several requests, including one of exactly the rate in the middle of a block, yields the same stream as squeezing at once.", "quantifier": "every permutation and request sizes", "why_tests_cant": "needs a squeeze that starts mid-block with exactly rate elements", "anchors": ["tachyon/crypto/hashes/sponge/poseidon/poseidon_sponge_base.h SqueezeInternal"]}
{"id": "C98", "title": "Different observations from the initial duplex challenger give different transcripts", "statement": "Observing x and observing x followed by 0 lead to states that are distinguished by the challenges.", "quantifier": "every permutation", "why_tests_cant": "structural collisions for all permutations", "anchors": ["tachyon/crypto/challenger/duplex_challenger.h DoObserve, Duplex"]}
{"id": "C99", "title": "Hash challenger: outputs chain every observation", "statement": "For every transcript the challenges are the elements, last first, of the hash of the previous block of outputs followed by the observations since, and of its iterated hashes.", "quantifier": "every hash function of fixed positive output length and every history", "why_tests_cant": "histories", "anchors": ["tachyon/crypto/challenger/hash_challenger.h"]}
{"id": "C100", "title": "Multi-field challenger packs and splits exactly", "statement": "No history is undefined; each lane absorbs a group of small elements as a base-2^32 number modulo the big modulus (injectively when it has room), and yields its lowest 64-bit digits modulo the small modulus; the challenges of every transcript follow.", "quantifier": "every permutation, group size, width, modulus and history", "why_tests_cant": "histories; boundary group sizes", "anchors": ["tachyon/crypto/challenger/multi_field32_challenger.h", "tachyon/crypto/challenger/multi_field32_conversions.h Reduce, Split"]}
{"id": "C101", "title": "Splitting a big field element yields reduced small elements", "statement": "Split returns canonical elements of the small field for every big element, also when the small field is not in Montgomery form.", "quantifier": "every small modulus and big element", "why_tests_cant": "needs a digit whose low half is at least the modulus", "anchors": ["tachyon/crypto/challenger/multi_field32_conversions.h Split", "tachyon/math/finite_fields/small_prime_field.h PrimeField"]}
{"id": "C102", "title": "GetAllLabels lists each cell of a cycle once (refuted)", "statement": "CycleStore::GetAllLabels returns the base of the cycle twice, first and last: the claim that it lists the cells of a cycle without repetition is refuted.", "quantifier": "every grid and cell", "why_tests_cant": "the repetition is in every result, but only a caller counting the labels sees it", "anchors": ["tachyon/zk/plonk/permutation/cycle_store.cc"]}
{"id": "C103", "title": "Copy rejects rows outside the table (refuted)", "statement": "PermutationAssembly::Copy checks CHECK_LE(row, rows), so row = rows passes and the cycle store is indexed outside its tables: the claim that the checks exclude every invalid row is refuted.", "quantifier": "every number of columns and rows", "why_tests_cant": "boundary row", "anchors": ["tachyon/zk/plonk/permutation/permutation_assembly.h"]}
{"id": "C104", "title": "The permutation columns encode exactly the copy constraints", "statement": "For a domain of 2^k rows and at most T columns (T the odd part of the group order), the labels delta^c omega^r are pairwise different, every entry of GeneratePermutations is the label of a cell connected to it, the entries are pairwise different, and an assignment satisfies all copy constraints exactly when it agrees on each cell with the cell whose label is its entry.", "quantifier": "every field, generator, domain size, number of columns and history of copies", "why_tests_cant": "histories and group structure", "anchors": ["tachyon/zk/plonk/permutation/permutation_assembly.h", "tachyon/zk/plonk/permutation/unpermuted_table.h", "tachyon/zk/plonk/permutation/permutation_utils.h"]}
{"id": "C105", "title": "Lookup argument: completeness", "statement": "If every usable input row occurs in the usable table and the challenges are not negatives of usable values, PermuteExpressionPair succeeds, the grand product exists, and with them all five expressions the lookup verifier evaluates are zero on every row of the domain, including the blinded rows and the wrap-around.", "quantifier": "every field, domain size, number of blinding factors, input, table, blinding values and challenges", "why_tests_cant": "needs all rows and challenges at once; a wrong boundary row shows only for some sizes", "anchors": ["tachyon/zk/lookup/halo2/permute_expression_pair.h", "tachyon/zk/lookup/halo2/prover_impl.h", "tachyon/zk/lookup/halo2/verifier.h", "tachyon/zk/plonk/permutation/grand_product_argument.h"]}
{"id": "C106", "title": "Lookup argument: soundness on the domain", "statement": "Whatever columns a prover chooses, if the verifier's five expressions vanish on every row then the permuted input only holds values of the permuted table and (challenges not hitting a zero) the two products agree; and if more than 3 u |X| challenge pairs out of X x X can be satisfied for fixed columns, every usable input is in the table.", "quantifier": "every field, domain, columns (adversarial) and set of challenges", "why_tests_cant": "adversarial columns; counting over challenges", "anchors": ["tachyon/zk/lookup/halo2/verifier.h"]}
{"id": "C107", "title": "Permutation argument: completeness", "statement": "If the assignment satisfies the copy constraints and the challenges hit no zero, the chunked grand products exist, there are ceil(columns / chunk length) of them, the running product ends in 1, and every expression of the permutation verifier vanishes on every row of the domain.", "quantifier": "every field, domain size, number of columns, chunk length, number of threads, history of copies, assignment and challenges", "why_tests_cant": "chunk boundaries and wrap-around rows for every size", "anchors": ["tachyon/zk/plonk/permutation/permutation_prover_impl.h", "tachyon/zk/plonk/permutation/permutation_table_store.h", "tachyon/zk/plonk/permutation/permutation_verifier.h", "tachyon/zk/plonk/permutation/grand_product_argument.h"]}
{"id": "C108", "title": "Permutation argument: soundness on the domain", "statement": "For fixed columns, if more than 3 (columns x usable rows) |X| challenge pairs out of X x X admit grand products that make the verifier's expressions vanish on every row, the assignment satisfies every copy constraint.", "quantifier": "every field, domain, history of copies, assignment (adversarial), set of challenges and chunk length", "why_tests_cant": "adversarial assignments; counting over challenges", "anchors": ["tachyon/zk/plonk/permutation/permutation_verifier.h", "tachyon/zk/plonk/permutation/permutation_assembly.h"]}
{"id": "C109", "title": "Compressing the selectors of a constraint system keeps the meaning of every gate", "statement": "CompressSelectors never aborts on gates with at most one simple selector as a factor. Afterwards, at every row where the new fixed columns hold the computed values, each gate polynomial vanishes exactly when the original did with its selectors read as 1 or 0, and gates without simple selectors keep their exact value.", "quantifier": "every selector table, every list of gate polynomials, every row and assignment", "why_tests_cant": "depends on how selectors overlap", "anchors": ["tachyon/zk/plonk/constraint_system/constraint_system.h CompressSelectors", "tachyon/zk/plonk/expressions/evaluator/selector_replacer.h", "tachyon/zk/plonk/expressions/evaluator/simple_selector_extractor.h"]}
{"id": "C110", "title": "The custom gate graph evaluates the gates it was built from", "statement": "CustomGateEvaluator's graph, built from any gate polynomials over existing columns, evaluates at every row to the Horner combination by y of the gate values at that row (with rotations wrapping around), starting from the previous value, whatever earlier rows left in the reused intermediates.", "quantifier": "every table, list of gate polynomials, row, challenges and stale intermediates", "why_tests_cant": "common-subexpression sharing and constant folding depend on the whole history of expressions", "anchors": ["tachyon/zk/plonk/vanishing/graph_evaluator.h", "tachyon/zk/plonk/vanishing/calculation.h", "tachyon/zk/plonk/vanishing/value_source.h", "tachyon/zk/plonk/custom_gate/custom_gate_evaluator.h"]}
{"id": "C111", "title": "Lookup and shuffle graphs compress and shift their expressions", "statement": "The graph of a halo2 lookup evaluates at every row to (theta-compressed inputs + beta) * (theta-compressed table + gamma); the graphs of the log-derivative lookup and of the shuffle evaluate to one theta-compressed side plus beta or gamma.", "quantifier": "every table, expressions, row and challenges", "why_tests_cant": "sharing between both sides", "anchors": ["tachyon/zk/lookup/halo2/evaluator.h", "tachyon/zk/lookup/log_derivative_halo2/evaluator.h", "tachyon/zk/shuffle/evaluator.h"]}
{"id": "C112", "title": "FRI queries bind the folding chain", "statement": "If each commitment of a proof can be opened to one matrix only and VerifyQuery accepts every index with the same final value, the committed matrices are exactly the foldings an honest prover would have made from the reduced openings with the verifier's challenges, and the last folding is constantly the final value.", "quantifier": "every field, sizes, list of inputs, challenges and (adversarial) openings", "why_tests_cant": "adversarial proofs, all indices", "anchors": ["tachyon/crypto/commitments/fri/verify.h VerifyQuery", "tachyon/crypto/commitments/fri/fri_config.h"]}
{"id": "C113", "title": "FRI with an input of exactly the blowup size", "statement": "A proof the prover makes for low-degree inputs verifies also when an input has exactly 2^log_blowup entries (a committed matrix with one row).", "quantifier": "every field, list of inputs, commitment scheme and challenger", "why_tests_cant": "a boundary size no test uses", "anchors": ["tachyon/crypto/commitments/fri/prove.h", "tachyon/crypto/commitments/fri/verify.h"]}
{"id": "C114", "title": "Two-adic cosets: points, splitting, disjoint cosets, selectors", "statement": "For a TwoAdicMultiplicativeCoset: GetZpAtPoint is zero exactly at its points; GetNextPoint walks round them; SplitDomains(2^j) partitions them into 2^j cosets of equal size, the c-th holding the points with index c modulo 2^j; CreateDisjointDomain(m) returns the smallest coset of at least m points and shares no point; GetSelectorsAtPoint gives the quotients of the vanishing polynomial and aborts exactly on the coset; GetSelectorsOnCoset on a disjoint coset of equal size gives the same selectors point by point, for any thread count.", "quantifier": "every field with a two-adic root, every size up to the two-adicity, shift, point and thread count", "why_tests_cant": "sizes and shifts unbounded", "anchors": ["tachyon/crypto/commitments/fri/two_adic_multiplicative_coset.h", "tachyon/crypto/commitments/fri/lagrange_selectors.h"]}
{"id": "C115", "title": "Selectors on a larger coset", "statement": "GetSelectorsOnCoset returns the selectors at the points of any disjoint coset at least as large as the domain (the quotient domain).", "quantifier": "every domain and larger coset", "why_tests_cant": "the unit test only uses equal sizes", "anchors": ["tachyon/crypto/commitments/fri/two_adic_multiplicative_coset.h GetSelectorsOnCoset"]}
{"id": "C116", "title": "Barycentric interpolation over a coset", "statement": "TwoAdicFRI's interpolation of a matrix of values over a coset returns, for each column, the value at the given point of the polynomial with these values, for every point outside the coset and every thread count.", "quantifier": "every field with a two-adic root, size, shift, columns, outside point and thread count", "why_tests_cant": "all polynomials and points", "anchors": ["tachyon/crypto/commitments/fri/two_adic_fri.h InterpolateCoset"]}
{"id": "C117", "title": "Barycentric interpolation at a point of the coset", "statement": "At a point of the coset itself, the interpolation returns the value the matrix holds there.", "quantifier": "every coset, point of it and columns", "why_tests_cant": "needs a point on the coset, which random tests miss", "anchors": ["tachyon/crypto/commitments/fri/two_adic_fri.h InterpolateCoset"]}
{"id": "C118", "title": "Batch transforms of a matrix", "statement": "FFTBatch replaces each column of a matrix with 2^k rows (k > 0) by the values of that column's polynomial on the subgroup, IFFTBatch interpolates each column and undoes FFTBatch, and a matrix with another number of rows aborts, for every order in which the parallel row loops run.", "quantifier": "every field with a two-adic root, size, number of columns, matrix and schedule", "why_tests_cant": "all schedules and sizes", "anchors": ["tachyon/math/polynomials/univariate/radix2_evaluation_domain.h FFTBatch", "tachyon/math/polynomials/univariate/two_adic_subgroup.h IFFTBatch"]}
{"id": "C119", "title": "Low-degree extension of a matrix onto a coset", "statement": "CosetLDEBatch(mat, added_bits, shift, out, reverse_at_last) fills out with the values of each column's interpolating polynomial on shift times the subgroup of size 2^added_bits times larger, in natural row order or, when reverse_at_last is false, bit-reversed.", "quantifier": "every field with a two-adic root, sizes, shift, number of columns, matrix, thread count and schedule", "why_tests_cant": "all schedules, sizes and thread counts", "anchors": ["tachyon/math/polynomials/univariate/radix2_evaluation_domain.h CosetLDEBatch", "tachyon/math/polynomials/univariate/radix2_evaluation_domain.h ExpandWithZeroPad"]}
{"id": "C120", "title": "The two CosetLDEBatch overloads agree", "statement": "CosetLDEBatch called with a constant matrix returns what it returns for a matrix it may overwrite, for both values of reverse_at_last.", "quantifier": "every matrix, shift, number of added bits and flag", "why_tests_cant": "the flag is only exercised on the other overload", "anchors": ["tachyon/math/polynomials/univariate/radix2_evaluation_domain.h CosetLDEBatch"]}
{"id": "C121", "title": "FFTBatch evaluates on the domain's own points", "statement": "FFTBatch on a domain gives, for every column, what FFT on the same domain gives for the polynomial with these coefficients, also when the domain is a coset obtained with GetCoset.", "quantifier": "every domain, offset and matrix", "why_tests_cant": "tests use the domain without offset", "anchors": ["tachyon/math/polynomials/univariate/radix2_evaluation_domain.h FFTBatch"]}
{"id": "C122", "title": "Batch transforms of a one-row matrix", "statement": "FFTBatch, IFFTBatch and CosetLDEBatch accept a matrix with a single row, on the domain of size one that Create(1) returns.", "quantifier": "every one-row matrix", "why_tests_cant": "a boundary size no test uses", "anchors": ["tachyon/math/polynomials/univariate/radix2_evaluation_domain.h FFTBatch", "tachyon/math/polynomials/univariate/radix2_evaluation_domain.h CosetLDEBatch"]}
{"id": "C123", "title": "Completeness of the FRI polynomial commitment", "statement": "Commit on the value matrices of polynomials (one matrix per coset, at least two rows), CreateOpeningProof at points off the extended coset and VerifyOpeningProof fit together: committing succeeds, the opened values are the values of the polynomials at the points, the verifier accepts, and both leave their challengers in the same state, whatever the two (complete) matrix commitment schemes, the challenger, the thread count and the schedule.", "quantifier": "every field with a two-adic root, batches of matrices of any heights and widths, points, blowup, number of queries, challenger and thread count", "why_tests_cant": "all parameters, shapes and schedules", "anchors": ["tachyon/crypto/commitments/fri/two_adic_fri.h Commit", "tachyon/crypto/commitments/fri/two_adic_fri.h CreateOpeningProof", "tachyon/crypto/commitments/fri/two_adic_fri.h VerifyOpeningProof", "tachyon/crypto/commitments/fri/two_adic_fri.h ComputeInverseDenominators"]}
{"id": "C124", "title": "Opened values are bound by an accepted proof", "statement": "Once commitments, points and a proof are fixed, VerifyOpeningProof does not accept two different sets of opened values for the same challenger state.", "quantifier": "every commitment, proof, challenger and set of opened values", "why_tests_cant": "a soundness statement about adversarial values", "anchors": ["tachyon/crypto/commitments/fri/two_adic_fri.h VerifyOpeningProof"]}
{"id": "C125", "title": "An accepted opening proof runs FRI on the quotients by the claimed values", "statement": "If each commitment can be opened to one list of matrices only and VerifyOpeningProof accepts every query position, the folded vectors are the honest FRI foldings of the combinations, by powers of the challenge alpha, of (p(x) - y) / (x - z) over the committed matrices, points and claimed values, one vector for each height, and the last one is the constant in the proof.", "quantifier": "every field, commitment, list of rounds, matrices of mixed heights, points, claimed values and challenges", "why_tests_cant": "quantifies over adversarial proofs and all positions", "anchors": ["tachyon/crypto/commitments/fri/two_adic_fri.h VerifyOpeningProof", "tachyon/crypto/commitments/fri/verify.h"]}
{"id": "C126", "title": "FRI soundness for one input", "statement": "If a layer commitment can be opened to one matrix only and every position is accepted for a single input, then the input is a codeword of degree below size / blowup, or some layer that the prover committed to before its challenge was drawn folds to a codeword under that one challenge and under no other element of the field.", "quantifier": "every field, input vector, commitment scheme, proof and challenges", "why_tests_cant": "quantifies over adversarial provers", "anchors": ["tachyon/crypto/commitments/fri/verify.h", "tachyon/crypto/commitments/fri/two_adic_fri.h FoldRow", "tachyon/crypto/commitments/fri/prove.h"]}
{"id": "C127", "title": "FRI soundness for inputs of different sizes", "statement": "If FRI accepts for inputs of different sizes, every input is close to a codeword of its rate, except with small probability over the challenges.", "quantifier": "every list of inputs, commitment scheme, challenger and proof", "why_tests_cant": "quantifies over adversarial inputs", "anchors": ["tachyon/crypto/commitments/fri/prove.h CommitPhase", "tachyon/crypto/commitments/fri/verify.h VerifyQuery"]}
{"id": "C128", "title": "Linear combinations compute on values", "statement": "Adding, subtracting, negating and scaling linear combinations, adding or subtracting a single term, and Deduplicate give a linear combination whose value under every assignment is the sum, difference, negation, multiple or the same value; no operation reads outside the terms, and operands with strictly increasing variables give strictly increasing variables.", "quantifier": "every field, every assignment, every pair of linear combinations (terms in any order, repeated variables), every sort Deduplicate may use, and both the scan and the binary search for a term", "why_tests_cant": "the unit tests use short combinations in order; the merge, the binary search and the unstable sort have to be right for every pair of lists", "anchors": ["tachyon/zk/r1cs/constraint_system/linear_combination.h: Deduplicate, operator+=, operator-=, operator+, operator-, operator*, GetVarLocation, BinarySearch, DoAddition", "tachyon/zk/r1cs/constraint_system/term.h: Term", "tachyon/zk/r1cs/constraint_system/variable.h: Variable, operator<"]}
{"id": "C129", "title": "The matrices ask what the circuit asks", "statement": "For a circuit that uses only variables it was given, synthesis, Finalize and ToMatrices succeed in setup mode and in prove mode with matrices. With either optimization goal, an assignment satisfying the matrices satisfies every constraint of the circuit, and an assignment the circuit accepts extends in exactly one way to the witnesses Finalize added; with the goal kConstraints none is added.", "quantifier": "every field, every circuit (any number of variables, nested linear combinations and constraints), every assignment, both goals, both modes, every sort used by Deduplicate", "why_tests_cant": "inlining and outlining rewrite every constraint, depend on how often each combination is used, and erase combinations as they go; a few test circuits do not cover the cases", "anchors": ["tachyon/zk/r1cs/constraint_system/constraint_system.h: CreateInstanceVariable, CreateWitnessVariable, CreateLinearCombination, EnforceConstraint, ComputeLCNumTimesUsed, TransformLCMap, InlineAllLCs, OutlineLCs, Finalize, MakeRow, MakeMatrix, ToMatrices"]}
{"id": "C130", "title": "IsSatisfied and the assignments in prove mode", "statement": "In prove mode the instance assignment is one followed by the values returned by the callbacks in order, and the witness assignment starts with those of the witnesses and is as long as the matrices are wide. IsSatisfied holds exactly when the circuit accepts those values, before and after Finalize, and exactly when the matrices hold for the assignments.", "quantifier": "every field, every circuit using only variables it was given, all callback values, both goals", "why_tests_cant": "the new witnesses and the removed combinations must not change the answer for any circuit", "anchors": ["tachyon/zk/r1cs/constraint_system/constraint_system.h: IsSatisfied, EvalLinearCombination, GetAssignedValue, Finalize, instance_assignments, witness_assignments"]}
{"id": "C131", "title": "The zero variable can be used in a constraint", "statement": "A constraint may use the variable returned by CreateZero with any coefficient: the matrices are those of the constraint without that term.", "quantifier": "every circuit", "why_tests_cant": "one circuit refutes it; no test uses the variable", "anchors": ["tachyon/zk/r1cs/constraint_system/constraint_system.h: CreateZero, MakeRow, ToMatrices", "tachyon/zk/r1cs/constraint_system/variable.h: Zero, GetIndex"]}
{"id": "C132", "title": "Finalize can be called again", "statement": "Calling Finalize on a finalized constraint system succeeds.", "quantifier": "every circuit", "why_tests_cant": "depends on which combinations the first call removed", "anchors": ["tachyon/zk/r1cs/constraint_system/constraint_system.h: Finalize, ComputeLCNumTimesUsed"]}
{"id": "C133", "title": "The cache of assigned values is transparent", "statement": "However a circuit's calls and evaluations of linear combinations alternate, evaluating a linear combination returns its value under the current assignment.", "quantifier": "every field, every circuit using only variables it was given, every interleaving of calls and evaluations", "why_tests_cant": "a stale or misplaced entry shows only for some histories of evaluations", "anchors": ["tachyon/zk/r1cs/constraint_system/constraint_system.h: GetAssignedValue, lc_assignment_cache_, EvalLinearCombination"]}
{"id": "C134", "title": "The instance map evaluates the assignment's polynomials", "statement": "On a domain with room for the constraints and the instance variables, InstanceMap at x returns the vanishing polynomial at x and three vectors, one entry per variable, which weighted with any assignment add up to A(x), B(x) and C(x): the polynomials interpolating the constraint rows of the assignment (and, for A, its instance variables).", "quantifier": "every field with roots of unity, every domain size, all matrices whose columns are variables, every x (inside or outside the domain), every assignment, every number of threads", "why_tests_cant": "the unit test compares with stored vectors for one circuit; the weights are Lagrange coefficients that must be right at every x", "anchors": ["tachyon/zk/r1cs/constraint_system/quadratic_arithmetic_program.h: InstanceMap", "tachyon/zk/r1cs/constraint_system/qap_instance_map_result.h: QAPInstanceMapResult"]}
{"id": "C135", "title": "The witness map returns the quotient", "statement": "WitnessMap returns for every assignment, and for one that satisfies the constraints it returns fewer coefficients than the domain has points, those of h with A B - C = h (X^n - 1) as polynomials.", "quantifier": "every field with roots of unity, every domain size, all matrices, every assignment, every schedule of the transforms", "why_tests_cant": "divisibility of A B - C has to hold for every satisfying assignment; tests use one", "anchors": ["tachyon/zk/r1cs/constraint_system/quadratic_arithmetic_program.h: WitnessMapFromMatrices, EvaluateConstraint", "tachyon/zk/r1cs/constraint_system/qap_witness_map_result.h: QAPWitnessMapResult"]}
{"id": "C136", "title": "The identity at enough points means the constraints hold", "statement": "If a polynomial h of degree below n - 1 satisfies A B - C = h (X^n - 1) at 2 n - 1 different points, the assignment satisfies every constraint.", "quantifier": "every field, all matrices, every assignment, every h, every set of points", "why_tests_cant": "a statement about all polynomials h a dishonest prover may use", "anchors": ["tachyon/zk/r1cs/constraint_system/quadratic_arithmetic_program.h: InstanceMap, WitnessMapFromMatrices"]}
{"id": "C137", "title": "The h query", "statement": "ComputeHQuery returns n - 1 elements, x^i t(x) / delta, so that the coefficients of h as weights add up to h(x) t(x) / delta.", "quantifier": "every domain size, every x, t and delta inverse, every number of threads", "why_tests_cant": "each chunk restarts the power of x from its own index; the chunking depends on the machine", "anchors": ["tachyon/zk/r1cs/constraint_system/quadratic_arithmetic_program.h: ComputeHQuery"]}
{"id": "C138", "title": "Setup and prover agree on the matrices", "statement": "Two runs of a circuit that make the same calls give the same matrices, whatever the mode of the constraint system and the values assigned.", "quantifier": "every circuit, all values, all modes that construct matrices, both goals", "why_tests_cant": "key generation runs in setup mode and proving in prove mode; a difference for some circuit would make every proof fail", "anchors": ["tachyon/zk/r1cs/constraint_system/constraint_system.h: Finalize, ToMatrices, set_mode", "tachyon/zk/r1cs/groth16/key.h: PreLoad", "tachyon/zk/r1cs/groth16/prove.h: CreateProofWithReduction"]}
{"id": "C139", "title": "The size check on the domain is sufficient", "statement": "On a domain that passes the check in InstanceMap and WitnessMap both stay within their vectors.", "quantifier": "every domain and all matrices", "why_tests_cant": "one domain refutes it; the library's own callers create a larger domain", "anchors": ["tachyon/zk/r1cs/constraint_system/quadratic_arithmetic_program.h: InstanceMap, WitnessMapFromMatrices"]}
{"id": "C140", "title": "Groth16 is complete", "statement": "For a circuit that accepts its own values the proving key loads, the verifying key inside it is the one VerifyingKey::Load gives, the prover returns a proof for every r and s, and the verifier accepts it for the public inputs of the circuit.", "quantifier": "every field, pairing and circuit that fits the domain, all toxic waste with gamma and delta not zero, every r and s, every number of threads and schedule", "why_tests_cant": "the tests prove one small circuit with one choice of secrets", "anchors": ["tachyon/zk/r1cs/groth16/prove.h: CreateProofWithAssignment, CreateProofWithReduction", "tachyon/zk/r1cs/groth16/proving_key.h: ProvingKey::Load", "tachyon/zk/r1cs/groth16/verify.h: VerifyProof", "tachyon/zk/r1cs/groth16/verifying_key.h: VerifyingKey::Load"]}
{"id": "C141", "title": "The Groth16 verifier checks the pairing equation", "statement": "VerifyProof returns for every key with a non-empty list, proof and list of public inputs; it accepts exactly if the number of public inputs fits the key and e(A,B) = e(alpha,beta) e(sum, gamma) e(C, delta).", "quantifier": "all verifying keys, proofs and public inputs", "why_tests_cant": "the code checks a product of pairings with negated points against a prepared constant; only for all points is that the equation of the paper", "anchors": ["tachyon/zk/r1cs/groth16/verify.h: VerifyProof, PrepareInputs, VerifyProofWithPreparedInputs", "tachyon/zk/r1cs/groth16/prepared_verifying_key.h", "tachyon/zk/r1cs/groth16/verifying_key.h: ToPreparedVerifyingKey"]}
{"id": "C142", "title": "A wrong witness is found out", "statement": "If the values of a circuit do not satisfy it, proofs made by the prover code from them are accepted for at most 2n - 2 secret points x, n the size of the domain, whatever r and s.", "quantifier": "every circuit and values, all secrets", "why_tests_cant": "a count over all secret points of the field", "anchors": ["tachyon/zk/r1cs/groth16/prove.h: CreateProofWithReduction", "tachyon/zk/r1cs/groth16/verify.h: VerifyProof"]}
{"id": "C143", "title": "Re-randomising keeps the verdict", "statement": "ReRandomizeProof with r1 not zero returns a proof that is accepted exactly when the original is.", "quantifier": "all keys, proofs (valid or not), public inputs, r1 and r2", "why_tests_cant": "the equation must hold for all r1 and r2", "anchors": ["tachyon/zk/r1cs/groth16/prove.h: ReRandomizeProof"]}
{"id": "C144", "title": "Re-randomising never aborts", "statement": "The factors ReRandomizeProof draws always let it finish.", "quantifier": "every outcome of the random draws", "why_tests_cant": "needs a draw with probability one over the size of the field", "anchors": ["tachyon/zk/r1cs/groth16/prove.h: ReRandomizeProof"]}
{"id": "C145", "title": "Keys are refused for gamma = 0", "statement": "No key is created from toxic waste with gamma = 0, with which anyone can make proofs.", "quantifier": "all circuits and toxic waste", "why_tests_cant": "needs a draw with probability one over the size of the field", "anchors": ["tachyon/zk/r1cs/groth16/proving_key.h: ProvingKey::Load", "tachyon/zk/r1cs/groth16/verifying_key.h: VerifyingKey::Load, DoLoad"]}
{"id": "C146", "title": "Groth16 is sound against algebraic provers", "statement": "A prover that forms A, B and C as any fixed combinations of the group elements of the key, and is accepted on a grid of secrets with 2, 3, 3, 4 and 2n - 1 values of alpha, beta, gamma, delta and x, has put a satisfying witness as weights on the witness query in C.", "quantifier": "all circuits, all weights on all elements of the proving and verifying key, all public inputs", "why_tests_cant": "a statement about every strategy of a dishonest prover and all secrets", "anchors": ["tachyon/zk/r1cs/groth16/proving_key.h: ProvingKey::Load", "tachyon/zk/r1cs/groth16/verifying_key.h: VerifyingKey::Load", "tachyon/zk/r1cs/groth16/verify.h: VerifyProof"]}
{"id": "C147", "title": "Satisfying inputs have accepted proofs for all secrets", "statement": "For all public and private inputs a circuit accepts there are weights on the elements of the key that are accepted for every choice of secrets with gamma and delta not zero.", "quantifier": "all circuits and inputs it accepts, all secrets", "why_tests_cant": "the converse of C146, for all secrets at once", "anchors": ["tachyon/zk/r1cs/groth16/proving_key.h: ProvingKey::Load", "tachyon/zk/r1cs/groth16/verify.h: VerifyProof"]}
{"id": "C148", "title": "KZG commits to the polynomial", "statement": "Setup for 2^k coefficients succeeds; Commit of at most 2^k coefficients is p(tau) times the generator, CommitLagrange of p's values on the domain of that size is the same point, longer vectors return false. Setup for a size that is not a power of two returns false, for a size beyond the field's domains it aborts.", "quantifier": "every field, group, secret, size, vector and number of threads", "why_tests_cant": "the tests use one secret and one size; equality of the two commitments must hold for every polynomial", "anchors": ["tachyon/crypto/commitments/kzg/kzg.h: UnsafeSetup, Commit, CommitLagrange", "tachyon/crypto/commitments/kzg/gwc.h: DoUnsafeSetupWithTau", "tachyon/crypto/commitments/kzg/shplonk.h: DoUnsafeSetupWithTau"]}
{"id": "C149", "title": "KZG commitments are binding", "statement": "Two vectors of at most n coefficients that have equal commitments for n different secrets have the same coefficients.", "quantifier": "all pairs of vectors, all sets of n secrets", "why_tests_cant": "a statement about all pairs of polynomials and a count of secrets", "anchors": ["tachyon/crypto/commitments/kzg/kzg.h: Commit"]}
{"id": "C150", "title": "Downsize keeps Commit", "statement": "Downsize to a smaller n succeeds and Commit of at most n coefficients gives the same point as before; to the same or a larger size it returns false and changes nothing.", "quantifier": "all setups, sizes and vectors", "why_tests_cant": "every size and vector", "anchors": ["tachyon/crypto/commitments/kzg/kzg.h: Downsize, Commit"]}
{"id": "C151", "title": "Downsize keeps CommitLagrange", "statement": "After Downsize to a smaller power of two, CommitLagrange of the values of p on the domain of that size commits to p.", "quantifier": "all setups, sizes and vectors", "why_tests_cant": "the first points of the Lagrange basis of the large domain look like a basis", "anchors": ["tachyon/crypto/commitments/kzg/kzg.h: Downsize, CommitLagrange"]}
{"id": "C152", "title": "A scheme read from a buffer verifies like the one written", "statement": "GWC or SHPlonk written with Copyable and read back accepts the proofs the original accepts and no others.", "quantifier": "all setups, claims and proofs", "why_tests_cant": "the test of serialisation compares fields, not verdicts", "anchors": ["tachyon/crypto/commitments/kzg/gwc.h: GWC(KZG&&, G2Point&&), Copyable::ReadFrom", "tachyon/crypto/commitments/kzg/shplonk.h: SHPlonk(KZG&&, G2Point&&), Copyable::ReadFrom"]}
{"id": "C153", "title": "GWC is complete", "statement": "For true claims about polynomials that fit the setup, CreateOpeningProof returns a proof and leaves the batch closed, and VerifyOpeningProof accepts it for every challenge, whatever follows it in the transcript.", "quantifier": "all polynomials, claims (any number of points per polynomial and polynomials per point, repetitions), secrets and challenges", "why_tests_cant": "the tests have one set of claims", "anchors": ["tachyon/crypto/commitments/kzg/gwc.h: DoCreateOpeningProof, DoVerifyOpeningProof", "tachyon/crypto/commitments/polynomial_openings.h: GroupBySinglePoint, CreateCombinedLowDegreeExtensions"]}
{"id": "C154", "title": "GWC is sound against algebraic provers", "statement": "If for every v of a set as large as the number of claims there are polynomials of the setup's size whose commitments are accepted for every u of such a set and for more secrets than the setup's size, all claims are true.", "quantifier": "all polynomials, claims, provers that use combinations of the public points", "why_tests_cant": "a statement about every strategy of a dishonest prover", "anchors": ["tachyon/crypto/commitments/kzg/gwc.h: DoVerifyOpeningProof"]}
{"id": "C155", "title": "SHPlonk is complete", "statement": "For true claims about polynomials that fit the setup, the prover returns a proof the verifier accepts for all challenges y, v and u, except u at which some polynomial is opened but not the first; with such u the verifier aborts.", "quantifier": "all polynomials, non-empty lists of claims, secrets and challenges", "why_tests_cant": "the tests have one set of claims, the exception needs a rare challenge", "anchors": ["tachyon/crypto/commitments/kzg/shplonk.h: DoCreateOpeningProof, DoVerifyOpeningProof", "tachyon/crypto/commitments/polynomial_openings.h: GroupByPolyOracleAndPoints, CreateCombinedLowDegreeExtensions"]}
{"id": "C156", "title": "SHPlonk is sound against algebraic provers", "statement": "If a prover passes for all y, v, u and tau of large enough sets, choosing H after y and v and Q after u as combinations of the public points, then the first claim about every polynomial and point is true.", "quantifier": "all polynomials, claims, provers that use combinations of the public points", "why_tests_cant": "a statement about every strategy of a dishonest prover", "anchors": ["tachyon/crypto/commitments/kzg/shplonk.h: DoVerifyOpeningProof"]}
{"id": "C157", "title": "SHPlonk checks every claim", "statement": "If VerifyOpeningProof accepts for a large set of challenges, every claim in its list is true.", "quantifier": "all lists of claims", "why_tests_cant": "needs two claims about one polynomial and point", "anchors": ["tachyon/crypto/commitments/kzg/shplonk.h: DoVerifyOpeningProof", "tachyon/crypto/commitments/polynomial_openings.h: GetOpeningFromPolyOpenings"]}
{"id": "C158", "title": "Openings are grouped without loss", "statement": "GroupBySinglePoint makes one group per point with its claims in order. GroupByPolyOracleAndPoints puts every polynomial in exactly one group; a group has exactly the points of each of its polynomials, in increasing order, with the values of the first claims; different groups have different sets of points.", "quantifier": "all lists of claims", "why_tests_cant": "every pattern of shared points", "anchors": ["tachyon/crypto/commitments/polynomial_openings.h: GroupBySinglePoint, GroupByPolyOracleAndPoints"]}
{"id": "C159", "title": "A GWC prover survives a failure", "statement": "After CreateOpeningProof returned false the prover can be used again.", "quantifier": "all histories of calls", "why_tests_cant": "needs a failing call followed by another", "anchors": ["tachyon/crypto/commitments/kzg/gwc.h: DoCreateOpeningProof", "tachyon/crypto/commitments/vector_commitment_scheme.h: SetBatchMode"]}
{"id": "C160", "title": "Evaluate is the multilinear extension", "statement": "Evaluate of 2^n values has these values at the corners of the cube, is affine in every variable, and agrees with fixing some variables first (FixVariables). Points of another size abort.", "quantifier": "all fields, numbers of variables below 64, values and points", "why_tests_cant": "the space of values and points is infinite; the index arithmetic depends on the number of variables", "anchors": ["tachyon/math/polynomials/multivariate/multilinear_dense_evaluations.h: Evaluate, FixVariables, RunFixVariables"]}
{"id": "C161", "title": "Operators on multilinear evaluations", "statement": "Addition, subtraction and negation are those of the functions at every point, multiplication and division those at the corners; division by a zero value has no result; vectors of different sizes are refused.", "quantifier": "all pairs of evaluations", "why_tests_cant": "every pair of vectors, including the empty one", "anchors": ["tachyon/math/polynomials/multivariate/multilinear_extension_ops.h: Add, Sub, Negate, Mul, Div"]}
{"id": "C162", "title": "Points with too few components", "statement": "A point with fewer components than variables is completed with zeros, as the comment says.", "quantifier": "all evaluations and shorter points", "why_tests_cant": "a contract for every shorter point", "anchors": ["tachyon/math/polynomials/multivariate/multilinear_dense_evaluations.h: Evaluate"]}
{"id": "C163", "title": "Equality of multilinear evaluations", "statement": "For evaluations of the same number of variables operator== is equality of the functions.", "quantifier": "all pairs of evaluations", "why_tests_cant": "quantifies over all points", "anchors": ["tachyon/math/polynomials/multivariate/multilinear_dense_evaluations.h: operator=="]}
{"id": "C164", "title": "operator== is an equivalence", "statement": "operator== of multilinear evaluations is transitive.", "quantifier": "all triples of evaluations", "why_tests_cant": "needs the right triple", "anchors": ["tachyon/math/polynomials/multivariate/multilinear_dense_evaluations.h: operator==, IsZero"]}
{"id": "C165", "title": "Linear combinations of products", "statement": "After any sequence of AddTerm, Combine is the sum over the cube of the sum of coefficient times product, Evaluate its value at a point, for every number of threads; each set of evaluations is stored once; terms without factors count as nothing; factors for another number of variables are refused.", "quantifier": "all sequences of AddTerm, all points, all numbers of threads", "why_tests_cant": "any sharing of evaluations between terms, any split into chunks", "anchors": ["tachyon/math/polynomials/multivariate/linear_combination.h: AddTerm, Combine, Evaluate", "tachyon/math/polynomials/multivariate/linear_combination_term.h: Combine, Evaluate"]}
{"id": "C166", "title": "InterpolateUniPoly interpolates", "statement": "The result is the value at the point of the polynomial with at most as many coefficients as values that takes the values at 0, 1, 2, ..., for every number of threads and also if the point is one of these.", "quantifier": "all fields, lists of values, points, numbers of threads", "why_tests_cant": "needs every degree and point", "anchors": ["tachyon/crypto/sumcheck/multilinear/sumcheck_verifier.h: InterpolateUniPoly"]}
{"id": "C167", "title": "Sumcheck is complete", "statement": "RunInteractiveProtocol returns true for every combination with a factor and every run of random values.", "quantifier": "all combinations, numbers of variables below 62, all random values, all numbers of threads", "why_tests_cant": "must hold for every outcome of the random draws", "anchors": ["tachyon/crypto/sumcheck/multilinear/sumcheck_prover.h: Round", "tachyon/crypto/sumcheck/multilinear/sumcheck_verifier.h: Round, CheckAndGenerateSubclaim", "tachyon/crypto/sumcheck/multilinear/multilinear_sumcheck.h: RunInteractiveProtocol"]}
{"id": "C168", "title": "Sumcheck is sound", "statement": "If the claimed sum is wrong, then for any prover that chooses each message from the challenges before it, at most n d |S|^(n-1) of the |S|^n runs of challenges from S make CheckAndGenerateSubclaim return true with a subclaim that holds, where d is the largest number of factors.", "quantifier": "all combinations, wrong sums, prover strategies, sets of challenges", "why_tests_cant": "a statement about every strategy of a dishonest prover", "anchors": ["tachyon/crypto/sumcheck/multilinear/sumcheck_verifier.h: Round, CheckAndGenerateSubclaim"]}
{"id": "C169", "title": "Sumcheck of a combination without terms", "statement": "The protocol also runs for a combination without terms, whose sum is 0.", "quantifier": "all combinations", "why_tests_cant": "boundary of an infinite family", "anchors": ["tachyon/crypto/sumcheck/multilinear/sumcheck_verifier.h: CheckAndGenerateSubclaim"]}
{"id": "C170", "title": "CheckAndGenerateSubclaim can be repeated", "statement": "A second call of CheckAndGenerateSubclaim gives the same answer as the first.", "quantifier": "all verifiers and histories of calls", "why_tests_cant": "needs a second call after a success", "anchors": ["tachyon/crypto/sumcheck/multilinear/sumcheck_verifier.h: CheckAndGenerateSubclaim"]}
{"id": "C171", "title": "Equality of proving keys", "statement": "Two proving keys that compare as equal contain the same evaluations.", "quantifier": "all pairs of proving keys", "why_tests_cant": "quantifies over pairs of keys", "anchors": ["tachyon/crypto/sumcheck/multilinear/sumcheck_proving_key.h: operator=="]}
{"id": "C172", "title": "AddTerm checks its evaluations", "statement": "Evaluations that AddTerm accepts can be evaluated, and missing values count as zero everywhere, as operator[] has it.", "quantifier": "all evaluations with at most 2^n values", "why_tests_cant": "every number of values", "anchors": ["tachyon/math/polynomials/multivariate/linear_combination.h: AddTerm", "tachyon/math/polynomials/multivariate/linear_combination_term.h: Combine", "tachyon/math/polynomials/multivariate/multilinear_dense_evaluations.h: operator[], Degree"]}
{"id": "C173", "title": "The sumcheck verifier survives any message", "statement": "CheckAndGenerateSubclaim returns false for a message of the wrong size.", "quantifier": "all messages", "why_tests_cant": "quantifies over everything a prover may send", "anchors": ["tachyon/crypto/sumcheck/multilinear/sumcheck_verifier.h: CheckAndGenerateSubclaim"]}
{"id": "C174", "title": "The optimised Poseidon permutation is Poseidon", "statement": "Permute with the configuration made by Create (constants moved through the inverse matrix, one constant per partial round, sparse matrices) maps every state to the state the permutation of the paper maps it to.", "quantifier": "all fields, widths from 2 on, numbers of rounds with at least two full ones, exponents, constants, invertible matrices, states", "why_tests_cant": "the equality of two different sequences of matrix products for every number of rounds and every state", "anchors": ["tachyon/crypto/hashes/sponge/poseidon/poseidon.h: Permute, ApplyARK, ApplySBox, ApplyMix", "tachyon/crypto/hashes/sponge/poseidon/poseidon_config.h: Create, OptimizeARK, ComputeSparseMatrices", "tachyon/crypto/hashes/sponge/poseidon/sparse_mds_matrix.h: FromMDSMatrix, Apply"]}
{"id": "C175", "title": "The generated matrix is MDS", "statement": "The matrix 1 / (x_i + y_j) built from two vectors with pairwise different entries is MDS: every square submatrix is invertible. It is built unless a sum is zero.", "quantifier": "all fields, sizes and pairs of vectors", "why_tests_cant": "all submatrices of all sizes", "anchors": ["tachyon/crypto/hashes/sponge/poseidon/poseidon_config.h: FindPoseidonARKAndMDS"]}
{"id": "C176", "title": "Permute does not collide", "statement": "If the exponent is coprime to p - 1, two different states have different images under Permute.", "quantifier": "all prime fields, widths, rounds, constants, pairs of states", "why_tests_cant": "a statement about all pairs of states", "anchors": ["tachyon/crypto/hashes/sponge/poseidon/poseidon.h: Permute"]}
{"id": "C177", "title": "The external matrix of Poseidon2", "statement": "Apply multiplies by the matrix of the paper (circ(2,1), circ(2,1,1), M4 or circ(2 M4, M4, ...)) with the M4 of the vendor, Construct returns this matrix, other widths are refused, and the matrix is invertible unless the characteristic is one of a few small primes.", "quantifier": "all fields, vendors, widths and states", "why_tests_cant": "all widths and states", "anchors": ["tachyon/crypto/hashes/sponge/poseidon2/poseidon2_external_matrix.h: Apply, Construct", "tachyon/crypto/hashes/sponge/poseidon2/poseidon2_horizen_external_matrix.h", "tachyon/crypto/hashes/sponge/poseidon2/poseidon2_plonky3_external_matrix.h"]}
{"id": "C178", "title": "The internal matrix of Poseidon2", "statement": "Apply multiplies by the matrix of ones with the given diagonal, which is invertible under a condition on the diagonal.", "quantifier": "all fields, widths, diagonals and states", "why_tests_cant": "all states", "anchors": ["tachyon/crypto/hashes/sponge/poseidon2/poseidon2_horizen_internal_matrix.h: Apply"]}
{"id": "C179", "title": "The internal matrix for small fields", "statement": "The scalar Apply on stored 32-bit values with shifts and 64-bit sums computes the same as the packed Apply with the diagonal -2, 2^s_1, ...: the product with the internal matrix, times 2^-32 for fields in Montgomery form. No sum overflows and the results are canonical.", "quantifier": "all odd moduli below 2^31, states, shifts up to 31 (30 for Mersenne31)", "why_tests_cant": "overflow depends on all values together", "anchors": ["tachyon/crypto/hashes/sponge/poseidon2/poseidon2_plonky3_internal_matrix.h: Apply, FromU62", "tachyon/crypto/hashes/sponge/poseidon2/poseidon2_config.h: Create"]}
{"id": "C180", "title": "Permute of Poseidon2", "statement": "Permute is the permutation of the Poseidon2 paper, and is injective if the exponent is coprime to p - 1 and the matrices are invertible.", "quantifier": "all fields, widths, rounds, constants, diagonals, states", "why_tests_cant": "all states", "anchors": ["tachyon/crypto/hashes/sponge/poseidon2/poseidon2.h: Permute, ApplyMixFull, ApplyMixPartial"]}
{"id": "C181", "title": "Scalar Poseidon2 over Mersenne31 passes its own checks", "statement": "In a build with DCHECKs the internal matrix can be applied to every state.", "quantifier": "all states over Mersenne31", "why_tests_cant": "the failing states are rare", "anchors": ["tachyon/crypto/hashes/sponge/poseidon2/poseidon2_plonky3_internal_matrix.h: FromU62", "tachyon/math/finite_fields/small_prime_field.h: PrimeField"]}
{"id": "C182", "title": "A Poseidon2 configuration survives serialization", "statement": "A configuration read back from the bytes written for it permutes as the original.", "quantifier": "all configurations", "why_tests_cant": "needs the configuration of a scalar small field", "anchors": ["tachyon/crypto/hashes/sponge/poseidon2/poseidon2_config.h: Copyable", "tachyon/crypto/hashes/sponge/poseidon/poseidon_config_base.h: operator=="]}
{"id": "C183", "title": "Packed addition, subtraction and negation", "statement": "Each lane of the sum, the difference and the negation of packed elements is the sum, the difference and the negation of the lanes, on AVX2, AVX-512 and NEON, and is canonical.", "quantifier": "all odd moduli below 2^31, numbers of lanes and lane values", "why_tests_cant": "2^62 pairs per lane; overflow and the zero lane", "anchors": ["tachyon/math/finite_fields/packed_prime_field32_avx2.h: AddMod32, SubMod32, NegateMod32", "tachyon/math/finite_fields/packed_prime_field32_avx512.h: AddMod32, SubMod32, NegateMod32", "tachyon/math/finite_fields/packed_prime_field32_neon.h: AddMod32, SubMod32, NegateMod32"]}
{"id": "C184", "title": "Packed Montgomery multiplication", "statement": "Each lane of the product of packed BabyBear or KoalaBear elements is the product of the lanes, on AVX2, AVX-512 and NEON.", "quantifier": "all odd moduli below 2^31 and lane values", "why_tests_cant": "2^62 pairs per lane", "anchors": ["tachyon/math/finite_fields/packed_prime_field32_avx2.h: MontMulMod32, PartialMontyRedSignedToSigned", "tachyon/math/finite_fields/packed_prime_field32_avx512.h: MontMulMod32", "tachyon/math/finite_fields/packed_prime_field32_neon.h: MontMulMod32", "tachyon/math/finite_fields/baby_bear/internal/", "tachyon/math/finite_fields/koala_bear/internal/"]}
{"id": "C185", "title": "Packed third, fifth and seventh powers", "statement": "Exp3, Exp5 and Exp7 of a packed element on AVX2 are the powers of its lanes, although the intermediate values are signed and not reduced.", "quantifier": "all odd moduli below 2^31 and lane values", "why_tests_cant": "signed intermediate values at every boundary", "anchors": ["tachyon/math/finite_fields/packed_prime_field32_avx2.h: Exp3, Exp5, Exp7, ShiftedSquare, ApplyFuncToEvenOdd"]}
{"id": "C186", "title": "Packed multiplication of Mersenne31", "statement": "Each lane of the product of packed Mersenne31 elements is the canonical product of the lanes, on AVX2, AVX-512 and NEON.", "quantifier": "all lane values", "why_tests_cant": "2^62 pairs per lane", "anchors": ["tachyon/math/finite_fields/mersenne31/internal/packed_mersenne31_avx2.cc: Mul", "tachyon/math/finite_fields/mersenne31/internal/packed_mersenne31_avx512.cc: Mul", "tachyon/math/finite_fields/mersenne31/internal/packed_mersenne31_neon.cc: Mul"]}
{"id": "C187", "title": "Packed inverse", "statement": "Inverse and InverseInPlace of a packed element always return; every lane that is not zero is inverted, the others are zero.", "quantifier": "all fields and lane values", "why_tests_cant": "all patterns of zero lanes", "anchors": ["tachyon/math/finite_fields/packed_prime_field_base.h: Inverse, InverseInPlace"]}
{"id": "C188", "title": "A packed element without inverse is reported", "statement": "Inverse of a packed element returns nothing if some lane is zero, like Inverse of a field element.", "quantifier": "all lane values", "why_tests_cant": "a counterexample is a value with a zero lane", "anchors": ["tachyon/math/finite_fields/packed_prime_field_base.h: Inverse, InverseInPlace"]}
{"id": "C189", "title": "Packed elements from integers", "statement": "The packed element made from a 32-bit integer has the residue of the integer in every lane.", "quantifier": "all 32-bit integers", "why_tests_cant": "all integers", "anchors": ["tachyon/math/finite_fields/baby_bear/internal/packed_baby_bear_avx2.cc: PackedBabyBearAVX2", "tachyon/math/finite_fields/mersenne31/internal/packed_mersenne31_avx2.cc: PackedMersenne31AVX2"]}
{"id": "C190", "title": "Binary search by key", "statement": "On a range ascending by key, BinarySearchByKey ends, never leaves the range, and returns an entry with the key exactly when there is one, end otherwise.", "quantifier": "all ranges, keys and values", "why_tests_cant": "all lengths and positions; duplicates", "anchors": ["tachyon/base/containers/container_util.h: BinarySearchByKey"]}
{"id": "C191", "title": "Multiplicities of a log-derivative lookup", "statement": "For every order in which the threads look the inputs up, the multiplicities are the same; for every table value, the multiplicities of the rows holding it add up to the number of inputs equal to it; rows that are not usable get zero; the shared counters are left at zero.", "quantifier": "all tables, inputs, sorts, schedules", "why_tests_cant": "all schedules of the atomic increments; duplicates in the table", "anchors": ["tachyon/zk/lookup/log_derivative_halo2/prover_impl.h: ComputeMPoly"]}
{"id": "C192", "title": "Log-derivative lookup completeness", "statement": "If every usable input is in the usable table and the challenge is not the negative of a table value, the multiplicities and grand sum the prover makes satisfy every constraint on every row, whatever the number of threads and the build.", "quantifier": "all fields, tables, numbers of inputs, threads, challenges and blinding values", "why_tests_cant": "all chunkings of the prefix sums", "anchors": ["tachyon/zk/lookup/log_derivative_halo2/prover_impl.h: ComputeMPoly, ComputeLogDerivatives, CreateGrandSumPoly", "tachyon/zk/lookup/log_derivative_halo2/evaluator.h: Evaluate"]}
{"id": "C193", "title": "Log-derivative lookup soundness", "statement": "If, for multiplicities fixed before the challenge, enough challenges (2 u (k + 1) for u usable rows and k inputs) admit a grand sum that satisfies every constraint, every usable input is in the usable table, provided the number of inputs is below the characteristic.", "quantifier": "all fields, columns, sets of challenges and grand sums", "why_tests_cant": "a statement about all cheating provers", "anchors": ["tachyon/zk/lookup/log_derivative_halo2/evaluator.h: Evaluate", "tachyon/zk/lookup/log_derivative_halo2/verifier.h: Evaluate, CreateGrandSumEvaluation"]}
{"id": "C194", "title": "Log-derivative verifier agrees with the prover's constraints", "statement": "Where no input's or table's value plus the challenge is zero, the verifier computes exactly the values of the constraint polynomials.", "quantifier": "all evaluations and challenges", "why_tests_cant": "all evaluations", "anchors": ["tachyon/zk/lookup/log_derivative_halo2/verifier.h: CreateGrandSumEvaluation", "tachyon/zk/lookup/log_derivative_halo2/evaluator.h: Evaluate"]}
{"id": "C195", "title": "The log-derivative verifier is defined on every proof", "statement": "For all evaluations a proof may contain, the verifier computes the values of the constraint polynomials.", "quantifier": "all evaluations, chosen by the prover after the challenge", "why_tests_cant": "a counterexample needs an evaluation that cancels the challenge", "anchors": ["tachyon/zk/lookup/log_derivative_halo2/verifier.h: CreateGrandSumEvaluation"]}
{"id": "C196", "title": "Shuffle completeness", "statement": "If the usable rows of the input are a permutation of those of the shuffle column and the challenge hits no zero, the prover's grand product makes every expression of the verifier vanish on every row.", "quantifier": "all fields, columns, challenges and blinding values", "why_tests_cant": "all permutations", "anchors": ["tachyon/zk/shuffle/prover_impl.h: CreateGrandProductPoly", "tachyon/zk/shuffle/verifier.h: Evaluate"]}
{"id": "C197", "title": "Shuffle soundness", "statement": "If more than 3 u challenges admit a grand product that makes every expression vanish on every row, the usable rows of the input are a permutation of those of the shuffle column.", "quantifier": "all fields, columns, sets of challenges and grand products", "why_tests_cant": "a statement about all cheating provers", "anchors": ["tachyon/zk/shuffle/verifier.h: Evaluate, CreateGrandProductEvaluation"]}
{"id": "C198", "title": "Any number of shuffle arguments", "statement": "For every number of shuffle arguments the prover's evaluation of the constraints reads each argument's own grand product.", "quantifier": "all numbers of arguments", "why_tests_cant": "the tests use one argument", "anchors": ["tachyon/zk/shuffle/evaluator.h: Construct, Evaluate, UpdateCosets"]}
{"id": "C199", "title": "Compression by a challenge", "statement": "The prover and the verifier compress a row of values to the same element. If the compressed rows of A are among (a permutation of) those of S for enough challenges, the rows of A are among (a permutation of) those of S. Terms folded by powers of a challenge are all zero once the folded value is zero for as many challenges as there are terms.", "quantifier": "all rows, widths and sets of challenges", "why_tests_cant": "a statement about all cheating provers", "anchors": ["tachyon/zk/plonk/expressions/compress_expression.h: CompressExpressions", "tachyon/zk/lookup/log_derivative_halo2/verifier.h: CompressExpressions", "tachyon/zk/shuffle/verifier.h: CompressExpressions", "tachyon/zk/lookup/log_derivative_halo2/evaluator.h: Evaluate"]}
{"id": "C200", "title": "Completeness of the vanishing argument", "statement": "If every gate, permutation and lookup constraint holds on every row, the prover's quotient exists, splits in degree - 1 pieces of n coefficients, and for every challenge outside the domain the value the verifier computes from the column evaluations equals the value of the combined pieces.", "quantifier": "all fields, domain sizes, circuits with gates, permutation and lookups, numbers of circuits, challenges, thread counts and schedules", "why_tests_cant": "all circuits, witnesses and challenges", "anchors": ["tachyon/zk/plonk/vanishing/vanishing_prover_impl.h: CreateFinalHPoly, CommitFinalHPoly, BatchEvaluate", "tachyon/zk/plonk/vanishing/circuit_polynomial_builder.h: BuildExtendedCircuitColumnScroll", "tachyon/zk/plonk/halo2/verifier.h: EvaluateH"]}
{"id": "C201", "title": "Soundness of the vanishing argument", "statement": "For fixed column, permutation and lookup polynomials: if for as many values of y as there are constraints some pieces of a quotient match the verifier's value at n times the degree challenges x, every constraint holds on every row.", "quantifier": "all fields, circuits, polynomials, pieces and sets of challenges", "why_tests_cant": "a statement about all cheating provers", "anchors": ["tachyon/zk/plonk/halo2/verifier.h: EvaluateH, ComputeAuxValues", "tachyon/zk/plonk/vanishing/vanishing_verifier.h: Evaluate"]}
{"id": "C202", "title": "The cube root of unity that shifts the extended domain", "statement": "For both vendors the shift is a primitive cube root of unity whenever the multiplicative group has one, and absent otherwise; the shifted extended domain never meets the domain.", "quantifier": "all fields, limb counts, extended domain sizes", "why_tests_cant": "all fields", "anchors": ["tachyon/zk/plonk/vanishing/vanishing_utils.h: GetZeta, GetHalo2Zeta"]}
{"id": "C203", "title": "To the extended domain and back", "statement": "CoeffToExtended gives the values on the shifted extended domain, ExtendedToCoeff the polynomial that has given values there, and they are inverse; dividing by the vanishing polynomial divides each value by x^n - 1.", "quantifier": "all fields, sizes, polynomials, thread counts and schedules", "why_tests_cant": "all sizes and schedules", "anchors": ["tachyon/zk/plonk/vanishing/vanishing_utils.h: CoeffToExtended, ExtendedToCoeff, DistributePowersZeta, DivideByVanishingPolyInPlace"]}
{"id": "C204", "title": "The extended circuit column holds the verifier's combination", "statement": "At every point of the shifted extended domain, the column the prover computes from the compiled graphs is x^n - 1 times what the verifier computes from evaluations at that point. The extended domain is the smallest with room for the quotient.", "quantifier": "all circuits, witnesses, challenges, thread counts and schedules", "why_tests_cant": "all circuits", "anchors": ["tachyon/zk/plonk/vanishing/circuit_polynomial_builder.h: BuildExtendedCircuitColumnScroll, UpdateLPolyCosets", "tachyon/zk/plonk/vanishing/custom_gate_evaluator.h: Evaluate", "tachyon/zk/plonk/permutation/permutation_evaluator.h: Evaluate", "tachyon/zk/lookup/halo2/evaluator.h: Evaluate", "tachyon/zk/plonk/constraint_system/constraint_system.h: ComputeDegree, ComputeExtendedK"]}
{"id": "C205", "title": "The verifier's evaluations of instance columns", "statement": "For each query of an instance column at a rotation the verifier gets the value, at the rotated challenge, of the polynomial interpolating the column padded with zeros; it aborts when the longest column and the range of rotations exceed the domain.", "quantifier": "all columns, queries, rotations and challenges", "why_tests_cant": "all rotations, both signs", "anchors": ["tachyon/zk/plonk/halo2/verifier.h: ComputeInstanceEvalsVec"]}
{"id": "C206", "title": "First, last and active row selectors", "statement": "The proving key's polynomials and the values the verifier computes at its challenge belong to the same Lagrange polynomials, which on the rows are the indicators of the first row, the row after the usable ones and the blinding rows.", "quantifier": "all domains, numbers of blinding factors and challenges", "why_tests_cant": "all challenges", "anchors": ["tachyon/zk/plonk/keys/proving_key.h: LoadWithVerifyingKey", "tachyon/zk/plonk/halo2/verifier.h: ComputeAuxValues"]}
{"id": "C207", "title": "When the verifier's expected quotient value exists", "statement": "The verifier computes its expected value for every challenge x with x^n not 1, and aborts exactly for the n other ones, also for satisfied circuits.", "quantifier": "all circuits, evaluations and challenges", "why_tests_cant": "n challenges out of the whole field", "anchors": ["tachyon/zk/plonk/halo2/verifier.h: EvaluateH"]}
{"id": "C208", "title": "The circuit column of the PSE vendor", "statement": "At every point of the shifted extended domain, the column built for the vendor PSE is the value there of the combination of the circuit's constraints.", "quantifier": "all circuits", "why_tests_cant": "the tests only run the vendor Scroll", "anchors": ["tachyon/zk/plonk/vanishing/circuit_polynomial_builder.h: BuildExtendedCircuitColumnPSE", "tachyon/zk/plonk/vanishing/graph_evaluator.h: Evaluate"]}
{"id": "C209", "title": "Lagrange coefficients of a range that wraps around", "statement": "EvaluatePartialLagrangeCoefficients for a range of at most n positions starting anywhere, also below zero, gives the Lagrange polynomials of the positions modulo n at tau, for tau inside or outside the coset.", "quantifier": "all domains, offsets, ranges and points", "why_tests_cant": "all ranges and points", "anchors": ["tachyon/math/polynomials/univariate/univariate_evaluation_domain.h: EvaluatePartialLagrangeCoefficients"]}
{"id": "C210", "title": "Tonelli-Shanks square roots", "statement": "For every prime field with p = 1 mod 4 that is not 2^k + 1 and whose configured generator is a non-square, SquareRoot terminates, returns a square root of every square and reports that there is none exactly for the non-squares. The generated two-adic root of unity is primitive of the full two-power order.", "quantifier": "all primes, generators, elements, exponent limb counts", "why_tests_cant": "all primes and elements, and termination of an unbounded loop", "anchors": ["tachyon/math/finite_fields/square_root_algorithms/tonelli_shanks.h: ComputeTonelliShanksSquareRoot", "tachyon/math/finite_fields/finite_field.h: SquareRoot", "tachyon/math/finite_fields/generator/prime_field_generator/prime_field_generator.cc: GenerateConfigHdr"]}
{"id": "C211", "title": "Shanks square roots", "statement": "For every prime p = 3 mod 4, SquareRoot returns a square root of every square and reports that there is none exactly for the non-squares.", "quantifier": "all primes, elements", "why_tests_cant": "all primes and elements", "anchors": ["tachyon/math/finite_fields/square_root_algorithms/shanks.h: ComputeShanksSquareRoot"]}
{"id": "C212", "title": "The Legendre symbol", "statement": "Legendre() is zero for 0, one for the non-zero squares and minus one for the non-squares, and is multiplicative.", "quantifier": "all odd primes, elements", "why_tests_cant": "all primes and elements", "anchors": ["tachyon/math/finite_fields/prime_field_base.h: Legendre"]}
{"id": "C213", "title": "Points from an x coordinate", "statement": "GetYsFromX fails exactly when no point has this x and otherwise returns the even and the other y of the points that have it; CreateFromX with the parity of a point's y gives that point.", "quantifier": "all prime fields, curves y^2 = x^3 + a x + b, x coordinates", "why_tests_cant": "all curves and coordinates", "anchors": ["tachyon/math/elliptic_curves/short_weierstrass/sw_curve.h: GetYsFromX, GetPointFromX", "tachyon/math/elliptic_curves/short_weierstrass/affine_point.h: CreateFromX"]}
{"id": "C214", "title": "pick_odd chooses an odd y", "statement": "CreateFromX with pick_odd set returns a point whose y is odd.", "quantifier": "all curves and x coordinates", "why_tests_cant": "all curves", "anchors": ["tachyon/math/elliptic_curves/short_weierstrass/sw_curve.h: GetPointFromX"]}
{"id": "C215", "title": "Roots of unity with a large subgroup", "statement": "For fields with a small subgroup base q, GetRootOfUnity(n) gives a primitive n-th root for every n = 2^i q^j within the adicities and fails for every other n; the generated root (before its conversion) has the order this needs.", "quantifier": "all fields, adicities, odd bases, sizes below 2^64", "why_tests_cant": "all sizes and fields", "anchors": ["tachyon/math/finite_fields/prime_field_base.h: Decompose, GetRootOfUnity", "tachyon/math/finite_fields/generator/prime_field_generator/prime_field_generator.cc: GenerateConfigHdr"]}
{"id": "C216", "title": "Goldilocks roots of unity on x86-64", "statement": "In the build without Montgomery form, GetRootOfUnity(n) of Goldilocks gives a primitive n-th root for every n = 2^i 3^j with i at most 32 and j at most 1.", "quantifier": "all sizes", "why_tests_cant": "the tests only ask for powers of two", "anchors": ["tachyon/math/finite_fields/prime_field_base.h: GetRootOfUnity", "tachyon/math/finite_fields/goldilocks/internal/BUILD.bazel: use_montgomery", "tachyon/math/finite_fields/generator/generator_util.cc: MpzClassToMontString"]}
{"id": "C217", "title": "Curve points in a proof round trip", "statement": "ReadFromProof returns the point that WriteToProof wrote, in both formats, whenever the modulus leaves the flag bits free; in the legacy format for points with x = 0 only if it is infinity.", "quantifier": "all prime fields and limb counts, curves, points, both formats", "why_tests_cant": "all points", "anchors": ["tachyon/zk/plonk/halo2/proof_serializer.h: ReadFromProof, WriteToProof"]}
{"id": "C218", "title": "Legacy encoding of points with x = 0", "statement": "A finite point with x = 0 written in the legacy format is read back as itself.", "quantifier": "all curves with such a point", "why_tests_cant": "rare points", "anchors": ["tachyon/zk/plonk/halo2/proof_serializer.h: ReadFromProof"]}
{"id": "C219", "title": "Encodings of points are unique", "statement": "No two different byte strings are read as the same point.", "quantifier": "all byte strings", "why_tests_cant": "all byte strings, for every curve", "anchors": ["tachyon/zk/plonk/halo2/proof_serializer.h: ReadFromProof", "tachyon/math/finite_fields/prime_field_fallback.h: FromBigInt"]}
{"id": "C220", "title": "CheckBits tells whether the flags fit", "statement": "CheckBits holds exactly when the modulus leaves the bits of the last byte free that the encoding uses for its flags.", "quantifier": "all moduli and limb counts, both formats", "why_tests_cant": "all moduli", "anchors": ["tachyon/zk/plonk/halo2/proof_serializer.h: CheckBits"]}
{"id": "C221", "title": "SquareRoot always returns", "statement": "SquareRoot returns for every element also when p = 2^k + 1 and before Init() has been called.", "quantifier": "all primes and elements", "why_tests_cant": "non-termination", "anchors": ["tachyon/math/finite_fields/square_root_algorithms/tonelli_shanks.h: ComputeTonelliShanksSquareRoot", "tachyon/math/finite_fields/prime_field_util.cc: ComputeTrace", "tachyon/math/finite_fields/generator/prime_field_generator/prime_field_config.cc.tpl: Init"]}
{"id": "C222", "title": "Free intervals of a column", "statement": "The free intervals that a column's allocations report for a range are exactly its unallocated rows: none is missing, none is allocated, every interval is non-empty and there is a gap between any two.", "quantifier": "all sets of allocations, start rows, open and closed ends", "why_tests_cant": "all sets of allocations", "anchors": ["tachyon/zk/plonk/layout/floor_planner/allocations.h: FreeIntervals"]}
{"id": "C223", "title": "First fit is the first fit", "statement": "FirstFitRegion returns the least row from the given start at which the region has room in all its columns, gives up only if there is none within the slack, marks exactly the region's cells as allocated, and never fails its CHECKs.", "quantifier": "all allocations, column lists, lengths, starts, slacks below 2^31", "why_tests_cant": "recursive search over all columns", "anchors": ["tachyon/zk/plonk/layout/floor_planner/v1/v1_strategy.cc: FirstFitRegion"]}
{"id": "C224", "title": "Biggest advice area first", "statement": "SlotInBiggestAdviceFirst puts every region at the earliest row where it meets none of the regions of larger advice area, regions never share a cell, and the starts come back in the order of the regions.", "quantifier": "all lists of region shapes with less than 2^31 rows, all correct sorts, all column orders", "why_tests_cant": "all region lists", "anchors": ["tachyon/zk/plonk/layout/floor_planner/v1/v1_strategy.h: SlotIn, SlotInBiggestAdviceFirst"]}
{"id": "C225", "title": "The layout does not depend on hash order", "statement": "Keys and proofs are laid out alike: the V1 layout of a circuit is the same for every order in which hash sets enumerate a region's columns, also where the column ordering leaves columns unordered.", "quantifier": "all circuits, all pairs of column orders", "why_tests_cant": "hash order varies between runs and builds", "anchors": ["tachyon/zk/plonk/layout/floor_planner/v1/v1_strategy.h: SlotIn", "tachyon/zk/plonk/layout/region_shape.h: RegionShape", "tachyon/zk/plonk/layout/floor_planner/v1/v1_floor_planner.h: Synthesize"]}
{"id": "C226", "title": "Rows offered to constants", "statement": "The V1 planner offers to constants every cell of a constants column above the end of the last region that no region covers, each once and no other.", "quantifier": "all circuits, lists of constants columns", "why_tests_cant": "all circuits", "anchors": ["tachyon/zk/plonk/layout/floor_planner/v1/v1_floor_planner.h: Synthesize"]}
{"id": "C227", "title": "The V1 floor planner keeps the circuit", "statement": "After V1 synthesis the circuit holds every region's values at the region's rows, no two regions overlap, every constant sits in a constants column and is copied to its cell, every equality is passed on with absolute rows, and nothing else is written. It fails only if there are more constants than cells for them.", "quantifier": "all circuits with less than 2^31 rows", "why_tests_cant": "all circuits", "anchors": ["tachyon/zk/plonk/layout/floor_planner/v1/v1_floor_planner.h: Synthesize", "tachyon/zk/plonk/layout/floor_planner/v1/assignment_pass.h: AssignRegion", "tachyon/zk/plonk/layout/floor_planner/v1/measurement_pass.h: AssignRegion", "tachyon/zk/plonk/layout/floor_planner/plan_region.h: PlanRegion", "tachyon/zk/plonk/layout/region_shape.h: RegionShape"]}
{"id": "C228", "title": "The simple floor planner keeps the circuit", "statement": "The same promises for the simple floor planner, for circuits whose regions refer to cells of themselves or of earlier regions.", "quantifier": "all circuits with less than 2^32 rows", "why_tests_cant": "all circuits", "anchors": ["tachyon/zk/plonk/layout/floor_planner/single_chip_layouter.h: AssignRegion", "tachyon/zk/plonk/layout/floor_planner/plan_region.h: PlanRegion"]}
{"id": "C229", "title": "Lookup tables are laid out and padded", "statement": "While keys are made, a table whose columns are new and have the same rows 0..n-1, n below the usable rows, is stored as given and padded with its row 0 to the last usable row; nothing else changes; its columns cannot be assigned again. Any other table is refused.", "quantifier": "all tables, hash orders, numbers of usable rows", "why_tests_cant": "all tables", "anchors": ["tachyon/zk/plonk/layout/floor_planner/lookup_table_assigner.h: AssignLookupTable", "tachyon/zk/plonk/layout/floor_planner/simple_lookup_table_layouter.h: AssignCell", "tachyon/zk/plonk/keys/assembly.h: AssignFixed, FillFromRow"]}
{"id": "C230", "title": "A table may use every usable row", "statement": "A table with exactly as many rows as there are usable rows is accepted.", "quantifier": "all tables", "why_tests_cant": "boundary for every size", "anchors": ["tachyon/zk/plonk/keys/assembly.h: FillFromRow", "tachyon/zk/plonk/layout/floor_planner/lookup_table_assigner.h: AssignLookupTable"]}
{"id": "C231", "title": "Tables in the prover's pass", "statement": "Synthesizing a circuit with a lookup table for the prover has no undefined behaviour.", "quantifier": "all tables", "why_tests_cant": "undefined behaviour that tests do not see", "anchors": ["tachyon/zk/plonk/layout/floor_planner/lookup_table_assigner.h: AssignLookupTable", "tachyon/zk/plonk/layout/floor_planner/simple_lookup_table_layouter.h: AssignCell", "tachyon/zk/plonk/halo2/witness_collection.h: WitnessCollection", "tachyon/zk/base/value.h: value"]}
{"id": "C232", "title": "Inequality of values", "statement": "a != b on zk::Value returns the negation of a == b.", "quantifier": "all values", "why_tests_cant": "non-termination", "anchors": ["tachyon/zk/base/value.h: operator!="]}
{"id": "C233", "title": "Column ordering is total", "statement": "Of two different columns one is less than the other.", "quantifier": "all pairs of columns", "why_tests_cant": "all pairs", "anchors": ["tachyon/zk/plonk/base/column_key.h: operator<", "tachyon/zk/plonk/layout/region_column.h: operator<"]}
{"id": "C234", "title": "The layout does not depend on the sort", "statement": "The V1 layout is the same for every correct sorting routine.", "quantifier": "all circuits, sorts", "why_tests_cant": "depends on the standard library", "anchors": ["tachyon/zk/plonk/layout/floor_planner/v1/v1_strategy.h: SlotInBiggestAdviceFirst"]}
{"id": "C235", "title": "A refused table cell changes nothing", "statement": "If AssignCell returns false the circuit is as before.", "quantifier": "all tables", "why_tests_cant": "error path", "anchors": ["tachyon/zk/plonk/layout/floor_planner/simple_lookup_table_layouter.h: AssignCell"]}
{"id": "C236", "title": "Binary fields are fields", "statement": "At every width the binary field's addition and multiplication obey the field laws: both are closed, associative and commutative, multiplication distributes over addition, every element is its own opposite and every non-zero element has an inverse.", "quantifier": "all widths 2^k, all elements", "why_tests_cant": "2^384 triples at 128 bits; the tables alone have 2^24 triples", "anchors": ["tachyon/math/finite_fields/binary_fields/binary_field.h: Add, Sub, Compose, Decompose", "tachyon/math/finite_fields/binary_fields/binary_tower_operations.h: Mul, MulByAlpha, DoBinaryMul"]}
{"id": "C237", "title": "Squares, generator products and inverses in binary fields", "statement": "Square returns the product of an element with itself, MulByAlpha its product with the generator, and Inverse returns nothing for zero and otherwise the only element whose product with the argument is one.", "quantifier": "all widths 2^k, all elements", "why_tests_cant": "all 128 bit elements", "anchors": ["tachyon/math/finite_fields/binary_fields/binary_tower_operations.h: Square, MulByAlpha, Inverse, DoBinaryInverse"]}
{"id": "C238", "title": "The binary fields form a tower", "statement": "Each binary field contains the field of half its width with the same multiplication, and is generated over it by an X with X^2 = aX + 1, a being the half-width field's generator. Decompose and Compose convert between an element and its coordinates.", "quantifier": "all widths 2^k, all elements", "why_tests_cant": "all elements", "anchors": ["tachyon/math/finite_fields/binary_fields/binary_field.h: Compose, Decompose", "tachyon/math/finite_fields/binary_fields/binary_tower_operations.h: Mul"]}
{"id": "C239", "title": "TwoInv of a binary field", "statement": "TwoInv returns an element whose product with One + One is one.", "quantifier": "all widths", "why_tests_cant": "quantifies over the whole field: no element has this property", "anchors": ["tachyon/math/finite_fields/binary_fields/binary_field.h: TwoInv, Double"]}
{"id": "C240", "title": "Evaluating sparse multivariate polynomials", "statement": "Evaluate returns the sum over the terms of the coefficient times the product of the powers of the point's coordinates, however the terms and factors are split over threads.", "quantifier": "all polynomials, points covering the variables, splittings into chunks", "why_tests_cant": "all schedules and polynomials", "anchors": ["tachyon/math/polynomials/multivariate/multivariate_sparse_coefficients.h: Evaluate, EvaluateSerial"]}
{"id": "C241", "title": "Evaluate refuses points of the wrong length", "statement": "A point that does not have a coordinate for every variable is refused.", "quantifier": "all numbers of variables and points", "why_tests_cant": "out-of-bounds reads that tests do not see", "anchors": ["tachyon/math/polynomials/multivariate/multivariate_sparse_coefficients.h: Evaluate"]}
{"id": "C242", "title": "Negation of sparse multivariate polynomials", "statement": "Negate and NegateInPlace return a polynomial in the same variables with the opposite value at every point.", "quantifier": "all polynomials, points", "why_tests_cant": "all points", "anchors": ["tachyon/math/polynomials/multivariate/multivariate_polynomial_ops.h: Negate, NegateInPlace"]}
{"id": "C243", "title": "Sums of sparse multivariate polynomials", "statement": "The value of a sum or difference at any point is the sum or difference of the values.", "quantifier": "all pairs of polynomials made with CreateChecked, points", "why_tests_cant": "all pairs and points", "anchors": ["tachyon/math/polynomials/multivariate/multivariate_polynomial_ops.h: DoAdd, AddInPlace, SubInPlace", "tachyon/math/polynomials/multivariate/multivariate_sparse_coefficients.h: Literal::operator<, Compact"]}
{"id": "C244", "title": "Compact keeps the polynomial", "statement": "Compact keeps the value at every point and leaves no zero coefficient.", "quantifier": "all lists of terms", "why_tests_cant": "all lists of terms", "anchors": ["tachyon/math/polynomials/multivariate/multivariate_sparse_coefficients.h: Compact, Literal::Degree, Literal::operator=="]}
{"id": "C245", "title": "A polynomial minus itself", "statement": "p - p is the zero polynomial.", "quantifier": "all polynomials", "why_tests_cant": "undefined behaviour that tests do not see", "anchors": ["tachyon/math/polynomials/multivariate/multivariate_polynomial_ops.h: Sub, DoAdd", "tachyon/math/polynomials/multivariate/multivariate_sparse_coefficients.h: Compact"]}
{"id": "C246", "title": "Sums can be evaluated", "statement": "The polynomial returned by Add or Sub can be evaluated.", "quantifier": "all summands, points", "why_tests_cant": "an uninitialised member; works by luck of the stack's content", "anchors": ["tachyon/math/polynomials/multivariate/multivariate_polynomial_ops.h: Add, Sub", "tachyon/math/polynomials/multivariate/multivariate_sparse_coefficients.h: num_vars_, Evaluate"]}
{"id": "C247", "title": "Degree of sparse multivariate polynomials", "statement": "Degree returns the largest total degree of a term, and polynomials over kMaxDegree cannot be made.", "quantifier": "all polynomials", "why_tests_cant": "all polynomials", "anchors": ["tachyon/math/polynomials/multivariate/multivariate_sparse_coefficients.h: Degree, Literal::Degree, CreateChecked"]}
{"id": "C248", "title": "Looking up a coefficient", "statement": "Indexing a polynomial with a literal returns that literal's coefficient.", "quantifier": "all polynomials made with CreateChecked, literals", "why_tests_cant": "all polynomials", "anchors": ["tachyon/math/polynomials/multivariate/multivariate_sparse_coefficients.h: operator[], GetCoefficient, Literal::operator<"]}
{"id": "C249", "title": "Inverse of an odd word modulo 2^62", "statement": "The inverse modulo 2^62 computed when an inverter is made is right for every odd modulus.", "quantifier": "all odd words", "why_tests_cant": "2^63 words", "anchors": ["tachyon/math/base/byinverter.h: Invert62, BYInverter"]}
{"id": "C250", "title": "Signed big integers of the inverter", "statement": "Sums, negations, products by a word, shifts, sign and comparison of the inverter's big integers are those of the numbers they represent in two's complement; saving a loaded BigInt gives it back.", "quantifier": "all numbers of chunks, values, multipliers", "why_tests_cant": "carries and borrows that occur once in 2^62 chunks", "anchors": ["tachyon/math/base/byinverter.h: CInt, Load, Save, Convert, operator+, operator-, operator*, operator==, Shift, Lowest, IsNegative"]}
{"id": "C251", "title": "Transition matrices of the inverter", "statement": "Jump ends, without overflow, with a matrix of determinant 2^62 that maps the pair to a multiple of 2^62, whatever the higher chunks are.", "quantifier": "all odd f, all g and delta", "why_tests_cant": "all pairs of words, all higher chunks", "anchors": ["tachyon/math/base/byinverter.h: Jump"]}
{"id": "C252", "title": "Modular inversion by the Bernstein-Yang method", "statement": "For an odd modulus and an adjuster below it, Invert ends on every input. It returns false exactly when the input and the modulus have a common divisor, and otherwise the one number below the modulus whose product with the input is the adjuster modulo the modulus.", "quantifier": "all numbers of limbs, odd moduli, adjusters below the modulus, inputs", "why_tests_cant": "termination and correctness for every modulus and input", "anchors": ["tachyon/math/base/byinverter.h: BYInverter, Invert, FG, DE, Norm"]}
{"id": "C253", "title": "Inverse of prime field elements", "statement": "Inverse and InverseInPlace return the Montgomery form of the inverse of every non-zero element, and nothing for zero.", "quantifier": "all odd primes, elements", "why_tests_cant": "all elements of all prime fields", "anchors": ["tachyon/math/finite_fields/prime_field_fallback.h: Inverse, InverseInPlace, inverter", "tachyon/math/base/byinverter.h: Invert"]}
{"id": "C254", "title": "Stream of the XORShift generator", "statement": "After SetSeed, whatever the generator did before, the outputs are those of the xorshift128 recurrence started from the seed's four little-endian words. Different seeds never reach the same four consecutive outputs at the same position, and no seed leads to a stream of zeros.", "quantifier": "all seeds, earlier states, positions in the stream", "why_tests_cant": "2^128 seeds and unbounded streams", "anchors": ["tachyon/crypto/random/xor_shift/xor_shift_rng.h: SetSeed, NextUint32"]}
{"id": "C255", "title": "Saving and restoring a generator", "statement": "WriteToBuffer succeeds exactly when the state (16 or 136 bytes) fits, and ReadFromBuffer of what was written gives any generator the saved state, so the same future outputs; the buffer's endianness does not matter and is kept. A failed read leaves the generator as it was.", "quantifier": "all states, buffers, cursors and endiannesses", "why_tests_cant": "all states and buffers", "anchors": ["tachyon/crypto/random/xor_shift/xor_shift_rng.h: ReadFromBuffer, WriteToBuffer", "tachyon/crypto/random/cha_cha20/cha_cha20_rng.h: ReadFromBuffer, WriteToBuffer"]}
{"id": "C256", "title": "Stream of the ChaCha20 generator", "statement": "Word i of the stream of a new generator, seeded with a key, is word i mod 16 of the block of that key with the 64-bit counter i / 16; no input of the block function is used twice in 2^64 blocks.", "quantifier": "all keys, positions in the stream, block functions", "why_tests_cant": "counter carries occur after 2^32 blocks", "anchors": ["tachyon/crypto/random/cha_cha20/cha_cha20_rng.h: ChaCha20RNG, SetSeed, Update, Get", "tachyon/crypto/random/block_rng.h: NextUint32"]}
{"id": "C257", "title": "SetSeed makes the stream a function of the seed", "statement": "After SetSeed returns true the outputs depend on the seed only; a seed of another length is refused and changes nothing.", "quantifier": "all seeds, all earlier histories of the generator", "why_tests_cant": "all positions at which the seed is changed", "anchors": ["tachyon/crypto/random/xor_shift/xor_shift_rng.h: SetSeed", "tachyon/crypto/random/cha_cha20/cha_cha20_rng.h: SetSeed"]}
{"id": "C258", "title": "A restored generator is safe to use", "statement": "After ReadFromBuffer returns true, drawing numbers has defined behaviour for ever.", "quantifier": "all buffer contents", "why_tests_cant": "all contents of the buffer", "anchors": ["tachyon/crypto/random/cha_cha20/cha_cha20_rng.h: ReadFromBuffer, Get", "tachyon/crypto/random/block_rng.h: NextUint32"]}
{"id": "C259", "title": "Field elements from random words", "statement": "FromUint512 maps any eight limbs, or sixty-four bytes, to the residue of the 512-bit number they form, also when the halves are not below the modulus. FromUint128 maps a number below the modulus to itself. Generate consumes sixteen words of the generator and returns the residue of the number they form.", "quantifier": "all odd four-limb moduli, all limbs, all generators", "why_tests_cant": "2^512 inputs, every modulus, halves above the modulus", "anchors": ["tachyon/zk/plonk/halo2/prime_field_conversion.h: FromUint128, FromUint512", "tachyon/zk/plonk/halo2/random_field_generator.h: Generate", "tachyon/crypto/random/rng.h: NextUint64"]}
{"id": "C260", "title": "Blinding replaces exactly the last rows", "statement": "Blind replaces the last rows (the factors, and one more on request) by successive values of the generator and keeps the others; it returns false and changes nothing when there are fewer rows than that.", "quantifier": "all columns, numbers of factors, generators", "why_tests_cant": "all sizes", "anchors": ["tachyon/zk/base/blinder.h: Blind", "tachyon/zk/base/row_types.h: RowIndex"]}
{"id": "C261", "title": "Rotated row indices", "statement": "GetIndex returns the row index plus rotation times scale, modulo the size, for negative rotations too, or stops the process on overflow; it never returns another row. The opposite rotation leads back.", "quantifier": "all rotations, indices, scales and sizes", "why_tests_cant": "all quadruples of 32-bit integers", "anchors": ["tachyon/zk/base/rotation.h: GetIndex"]}
{"id": "C262", "title": "Key stream of the Grain generator", "statement": "The generator made from a configuration runs through the sequence of the Poseidon paper: the first 80 bits encode the configuration, the others follow the recurrence, and the output starts at bit 240. Generators of different configurations never agree on 80 consecutive bits at the same position.", "quantifier": "all configurations, all positions in the stream", "why_tests_cant": "unbounded streams and all configurations", "anchors": ["tachyon/crypto/hashes/sponge/poseidon/poseidon_grain_lfsr.h: PoseidonGrainLFSR, Update, Init"]}
{"id": "C263", "title": "GetBits terminates and self-shrinks", "statement": "GetBits returns for every configuration and after any earlier calls: of any 80 consecutive pairs of bits one begins with a one. The answers to a sequence of requests are together the second bits of the pairs that begin with a one, in order; bits of the bitset beyond a request are zero, and a request beyond the bitset throws.", "quantifier": "all configurations, sequences of requests, bitset sizes", "why_tests_cant": "termination over a period of up to 2^80 - 1", "anchors": ["tachyon/crypto/hashes/sponge/poseidon/poseidon_grain_lfsr.h: GetBits"]}
{"id": "C264", "title": "Field elements of the Grain generator", "statement": "GetFieldElementsRejectionSampling returns the next integers (most significant bit first) below the modulus, skipping exactly those that are not; GetFieldElementsModP returns the next integers modulo the modulus. Both stop the process if the configuration is for another number of bits.", "quantifier": "all configurations, moduli, numbers of elements", "why_tests_cant": "all moduli and streams", "anchors": ["tachyon/crypto/hashes/sponge/poseidon/poseidon_grain_lfsr.h: GetFieldElementsRejectionSampling, GetFieldElementsModP", "tachyon/math/base/big_int.h: FromBitsBE"]}
{"id": "C265", "title": "Draws behind the Poseidon constants", "statement": "FindPoseidonARKAndMDS takes the round constants, row by row, then skips two vectors for each matrix to skip, then takes the two vectors of the matrix, all from one stream without gaps or overlaps.", "quantifier": "all configurations, moduli, numbers of rounds and skips", "why_tests_cant": "all sizes", "anchors": ["tachyon/crypto/hashes/sponge/poseidon/poseidon_config.h: FindPoseidonARKAndMDS"]}
{"id": "C266", "title": "Pedersen commitments", "statement": "Commit returns r h + v_0 g_0 + ... for a vector with as many entries as generators and false for every other; the sum of two commitments commits to the sum of the vectors and random values. Two openings of a commitment give a relation between the generators; if the generators are multiples of h, every commitment can be opened to every vector.", "quantifier": "all vectors, random values, generators, groups", "why_tests_cant": "all vectors and groups", "anchors": ["tachyon/crypto/commitments/pedersen/pedersen.h: Commit, DoCommit, ComputeCommitment"]}
{"id": "C267", "title": "Batches of KZG commitments", "statement": "After SetBatchMode(n), calls of Commit and CommitLagrange with indices, and GetBatchCommitments, entry i is the commitment made without batch mode by the last call for i that returned true; the next batch starts afresh. Outside batch mode and in a batch begun already the process stops; an index beyond the batch is undefined.", "quantifier": "all sequences of calls, vectors and indices", "why_tests_cant": "all histories of calls", "anchors": ["tachyon/crypto/commitments/kzg/kzg.h: Commit, CommitLagrange, GetBatchCommitments, ResizeBatchCommitments", "tachyon/crypto/commitments/vector_commitment_scheme.h: SetBatchMode", "tachyon/crypto/commitments/univariate_polynomial_commitment_scheme.h: Commit, CommitLagrange"]}
{"id": "C268", "title": "Batches of Pedersen commitments", "statement": "In batch mode Commit(v, r, i) stores at i the commitment that Commit(v, r, &c) makes.", "quantifier": "all sequences of calls, vectors, random values and indices", "why_tests_cant": "all histories of calls; the unit test compares with the unblinded sum", "anchors": ["tachyon/crypto/commitments/pedersen/pedersen.h: DoCommit, GetBatchCommitments", "tachyon/crypto/commitments/vector_commitment_scheme.h: Commit, SetBatchMode"]}
{"id": "C269", "title": "The prover's witness collection", "statement": "After any sequence of AssignAdvice calls each advice cell holds the value of the last call for it and zero if there was none; rows that are not usable stay zero. Calls for columns of later phases are ignored without running the callback; every other call needs an existing column, a usable row and a known value, and nothing else stops the process. Challenges and instances read meanwhile are those the collection was made with.", "quantifier": "all sequences of calls, sizes and phases", "why_tests_cant": "all histories of calls", "anchors": ["tachyon/zk/plonk/halo2/witness_collection.h: WitnessCollection, AssignAdvice, QueryInstance, GetChallenge"]}
{"id": "C270", "title": "Advice columns committed to", "statement": "In each phase exactly the advice columns of that phase are committed to, each once and in the order of their indices; the usable rows are the assigned values, evaluated, the rows after them zero and the last row one. The rows after the usable ones are therefore the same in all proofs and do not blind the column.", "quantifier": "all sequences of calls, sizes and phases", "why_tests_cant": "all circuits", "anchors": ["tachyon/zk/plonk/halo2/synthesizer.h: GenerateAdviceColumns", "tachyon/zk/plonk/halo2/witness_collection.h: TakeAdvices"]}
