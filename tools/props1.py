# Source of /verif/properties.jsonl: run `python3 tools/props1.py` from /verif to regenerate it.
import json, glob, os, sys
P=[]
def p(id,title,statement,quantifier,why,anchors):
    P.append(dict(id=id,title=title,statement=statement,quantifier=quantifier,why_tests_cant=why,anchors=anchors))
W="tachyon/"
M=W+"math/"
BI=W+"math/base/big_int.h"
p("C01","BigInt addition and subtraction are exact integer arithmetic modulo 2^(64N) with a truthful carry",
 "For limb vectors a and b of the same length N, Add/AddInPlace returns the limbs of (value(a)+value(b)) mod 2^(64N) and reports carry 1 exactly when the sum does not fit; Sub/SubInPlace returns (value(a)-value(b)) mod 2^(64N) and reports borrow 1 exactly when value(a)<value(b).",
 "every limb count N and every pair of N-limb values","2^(128N) operand pairs; carry chains of every length",
 [BI+" BigInt::Add, Sub, DoAdd, DoSub",W+"math/base/arithmetics.h AddWithCarry, SubWithBorrow"])
p("C02","BigInt multiplication returns the full double-width product",
 "MulExtend(a,b) returns (lo,hi) with value(lo)+2^(64N)*value(hi) = value(a)*value(b); Mul returns the low half.",
 "every N and every pair of N-limb values","carries propagate through every row of the schoolbook product; corner cases are exponentially rare",
 [BI+" BigInt::Multiply, Mul, MulExtend",W+"math/base/arithmetics.h MulAddWithCarry"])
p("C03","BigInt division is Euclidean division",
 "Divide(a,d) fails exactly when d is zero, otherwise it returns q,r with value(a)=value(q)*value(d)+value(r) and value(r)<value(d).",
 "every N, every dividend and divisor","the bitwise loop has a carry path that only triggers when the partial remainder overflows 64N bits",
 [BI+" BigInt::Divide, Div, Mod"])
p("C04","BigInt shifts are multiplication and division by powers of two",
 "MulBy2ExpInPlace(n) (operator<<) yields value*2^n mod 2^(64N) and DivBy2ExpInPlace(n) (operator>>) yields floor(value/2^n), for every shift amount including 0, multiples of 64 and amounts at or beyond the width; MulBy2/DivBy2 are the n=1 cases and MulBy2 reports the bit shifted out.",
 "every N, every value, every 32-bit shift amount","the limb loop and the residual shift interact for every residue of n modulo 64",
 [BI+" BigInt::MulBy2ExpInPlace, DivBy2ExpInPlace, MulBy2InPlace, DivBy2InPlace"])
p("C05","BigInt comparison operators decide the integer order",
 "operator== / != / < / > / <= / >= on BigInt agree with the comparison of the represented integers.",
 "every N and every pair of values","lexicographic scans are easy to get wrong on one side only",
 [BI+" BigInt::operator<, operator>, operator<=, operator>=, operator=="])
p("C06","BigInt bit and byte conversions round-trip and preserve the value",
 "ToBitsLE/BE and ToBytesLE/BE list the bits/bytes of the value in the announced order, and FromBitsLE/BE, FromBytesLE/BE recover the same BigInt from them.",
 "every N and every value","full domain of the codec",
 [BI+" FromBitsLE, FromBitsBE, ToBitsLE, ToBitsBE, FromBytesLE, FromBytesBE, ToBytesLE, ToBytesBE"])
p("C07","ToNAF is a non-adjacent signed-digit representation of the value",
 "The digits returned by ToNAF are in {-1,0,1}, no two neighbouring digits are both non-zero, and sum digit_i*2^i equals the value.",
 "every N and every value","a wrap-around of the internal addition only happens at the very top of the range",
 [BI+" BigInt::ToNAF"])
p("C08","Montgomery reduction divides by R modulo the modulus",
 "For an odd modulus m<2^(64N) with the matching constant -m^-1 mod 2^64 and any x<m*2^(64N), MontgomeryReduce/FromMontgomery yields the canonical representative r<m with r*2^(64N) = x mod m.",
 "every N, every odd modulus, every input below m*R","the discarded-carry optimisation is only justified by an inequality over all inputs",
 [BI+" BigInt::FromMontgomery, MontgomeryReduce"])
p("C09","Prime-field arithmetic in Montgomery form is arithmetic modulo p",
 "Add, Sub, Double, Negate, Mul and Square of prime-field elements in Montgomery form return canonical elements (<p) representing the sum, difference, double, negation, product and square modulo p, on both the fast (spare-bit) and the slow multiplication path.",
 "every modulus admitted by the configuration, every pair of canonical elements","p^2 operand pairs of 254-bit elements",
 [W+"math/finite_fields/prime_field_fallback.h PrimeField::AddInPlace, SubInPlace, MulInPlace, SquareInPlace, DoFastMul, DoSlowMul",BI+" Clamp"])
p("C10","32-bit Montgomery fields compute modulo p",
 "For 31-bit moduli (BabyBear, KoalaBear), To/FromMontgomery are inverse bijections on [0,p), and Add/Sub/Mul/Negate/Double of Montgomery words return canonical words representing the modular results.",
 "every odd modulus below 2^31 with its 2^32-inverse constant and all canonical words","2^62 operand pairs per operation",
 [W+"math/finite_fields/small_prime_field_mont.h",W+"math/finite_fields/generator/prime_field_generator/small_prime_field_config.h.tpl AddMod, SubMod, ToMontgomery, FromMontgomery"])
p("C11","Mersenne-31 reduction is correct on every 64-bit product",
 "The Mersenne31 field's Reduce maps every 64-bit product of canonical elements to the canonical residue modulo 2^31-1, so Mul, Add and Sub are arithmetic modulo 2^31-1.",
 "all pairs of canonical elements","2^62 products; the shift-and-add trick has boundary residues",
 [W+"math/finite_fields/small_prime_field.h",W+"math/finite_fields/mersenne31"])
p("C12","BigInt Montgomery inverse is the modular inverse",
 "MontgomeryInverse of a non-zero element returns its inverse in Montgomery form and terminates; for zero it reports failure.",
 "every odd prime modulus with the configuration's spare-bit property and every element","termination and the loop invariant range over all inputs",
 [BI+" BigInt::MontgomeryInverse"])
p("C13","The portable 64-bit subtract-with-borrow agrees with the builtin",
 "The fallback (non-builtin) SubWithBorrow on 64-bit words returns the difference modulo 2^64 and borrow 1 exactly when a < b + borrow_in.",
 "all word triples","2^129 inputs, and the fallback branch is not compiled on the tested hosts",
 [W+"math/base/arithmetics.h SubWithBorrow"])
SG=W+"math/base/semigroups.h"
p("C14","Exponentiation and scalar multiplication are iterated group operations",
 "x.Pow(e) equals the e-fold product of x, x.ScalarMul(e) equals the e-fold sum, and PowWithTable over a table of x^(2^i) agrees with Pow whenever the table is long enough, otherwise it fails; MultiScalarMul and LinearCombination are the elementwise products and the Horner sum, refusing mismatched sizes.",
 "every monoid, element and exponent (any width)","exponents are unbounded",
 [SG+" MultiplicativeSemigroup::Pow, PowWithTable, AdditiveSemigroup::ScalarMul, MultiScalarMul, LinearCombination"])
p("C15","GetSuccessivePowers is independent of the number of threads",
 "GetSuccessivePowers(size, g, c) returns [c, c*g, c*g^2, ...] of length size for every thread count; the bit-reversed variant returns the same list in bit-reversed order.",
 "every size, every thread count/chunking, every generator and constant","thread counts and chunk boundaries are environment-dependent",
 [SG+" GetSuccessivePowers, GetBitRevIndexSuccessivePowers",W+"base/parallelize.h Parallelize"])
p("C16","BatchInverse inverts every non-zero entry, leaves zeros, for any chunking",
 "BatchInverse(groups, out, coeff) writes coeff*groups[i]^-1 wherever groups[i] is non-zero and leaves a zero output for zero entries, independent of how the work is split across threads; mismatched sizes are rejected.",
 "every input vector including zeros anywhere, every coefficient, every thread count","position and number of zeros interact with the prefix-product chain",
 [W+"math/base/groups.h MultiplicativeGroup::BatchInverse, DoBatchInverse"])
p("C17","RationalField denotes fractions",
 "Add/Sub/Mul/Div/Negate/Inverse/Square/Double on RationalField agree with the field operations on numerator/denominator; equality, IsZero, IsOne and IsMinusOne decide the value; BatchEvaluate yields coeff times the value.",
 "every pair of rationals with non-zero denominators","value-level predicates quantify over all representations of a value",
 [W+"math/base/rational_field.h"])
p("C18","Parallelize visits every element exactly once",
 "Parallelize and ParallelizeByChunkSize hand out chunks that are pairwise disjoint, in order, cover the container exactly, all of the announced chunk size except possibly the last, with chunk_offset*chunk_size the position of the chunk's first element; hence a mapped container equals the sequential map under any execution order of the chunks.",
 "every container size, chunk size, thread count, threshold and schedule","schedules and thread counts are not enumerable",
 [W+"base/parallelize.h",W+"base/openmp_util.h GetNumElementsPerThread, GetSizePerThread"])
p("C19","ParallelizeResize behaves like vector::resize",
 "ParallelizeResize(v, n, x) leaves the first min(n, old) elements unchanged and sets the rest to x, without touching memory outside the container.",
 "every old and new size (growing and shrinking)","out-of-range spans are undefined behaviour that a passing test does not reveal",
 [W+"base/parallelize.h ParallelizeResize"])
BU=W+"base/buffer/"
p("C20","Endian-aware integer I/O round-trips",
 "Writing an 8/16/32/64-bit integer with a given endianness stores its bytes in that order and reading it back with the same endianness yields the same integer; the other bytes of the buffer are unchanged and the offset advances by the width.",
 "every buffer content, offset, width, endianness and value","full codec domain",
 [BU+"buffer.cc",BU+"buffer.h",BU+"read_only_buffer.cc",BU+"read_only_buffer.h"])
p("C21","Serialisation of composite values round-trips",
 "For strings, vectors, arrays, structs written field by field and matrices, arbitrarily nested, writing then reading from the same offset returns an equal value, consumes exactly EstimateSize bytes and leaves whatever follows intact.",
 "all nested values and all trailing bytes","unbounded nesting and lengths",
 [BU+"copyable.h",BU+"buffer.h",BU+"vector_buffer.cc"])
p("C22","Buffer accesses stay within bounds",
 "A read or write of n bytes at an offset succeeds only if offset+n fits in the buffer (after an allowed Grow), including when offset+n overflows; a failing operation leaves the content unchanged.",
 "every offset, length and buffer size up to 2^64","overflow needs offsets near 2^64",
 [BU+"read_only_buffer.cc ReadOnlyBuffer::Read",BU+"read_only_buffer.h ReadPtrAt",BU+"buffer.cc"])
p("C23","WriteMany at an explicit offset lays its arguments out consecutively",
 "WriteManyAt(offset, a, b, ...) stores the encodings of a, b, ... one after another from offset, so that ReadManyAt(offset, ...) returns them.",
 "all argument lists and offsets","argument lists are arbitrary",
 [BU+"buffer.h Buffer::WriteManyAt, WriteMany",BU+"read_only_buffer.h ReadManyAt"])
p("C24","circular_deque behaves as a double-ended sequence",
 "After any history of push/emplace/pop at both ends, insert, erase, resize, reserve, shrink_to_fit, clear, assign, copy, move and swap, the deque's contents, size, front/back, indexing and iteration equal those of the list obtained by the same history, and every access stays inside the allocated ring.",
 "every finite operation history and element type","wrap-around positions and capacities depend on the whole history",
 [W+"base/containers/circular_deque.h"])
p("C25","Range predicates describe the integer interval",
 "Contains(v) holds exactly for the values between the bounds (respecting inclusiveness), GetSize is the number of contained values, IsEmpty holds exactly when no value is contained, Intersect(a,b) contains exactly the common values.",
 "every bound pair and inclusiveness combination","full interval algebra",
 [W+"base/range.h"])
FF=W+"math/finite_fields/"
p("C26","Quadratic extension arithmetic is arithmetic modulo x^2-q",
 "Mul, Square (all three algorithms), Inverse, Norm, Conjugate, Add, Sub, Mul-by-base of QuadraticExtensionField agree with polynomial arithmetic modulo x^2-q, Inverse fails exactly on zero (q a non-residue) and otherwise returns the inverse.",
 "every base field, non-residue and operands","infinite families of towers",
 [FF+"quadratic_extension_field.h"])
p("C27","Cubic extension arithmetic is arithmetic modulo x^3-q",
 "Mul (Karatsuba), Square (CH-SQR2) and Inverse of CubicExtensionField agree with polynomial arithmetic modulo x^3-q; Inverse returns a true inverse whenever the norm is non-zero.",
 "every base field, non-residue and operands","algebraic identities over all operands",
 [FF+"cubic_extension_field.h"])
p("C28","Quartic extension arithmetic is arithmetic modulo x^4-q",
 "Toom-Cook Mul and Square of QuarticExtensionField agree with schoolbook multiplication modulo x^4-q whenever 2,3,5 are invertible; Inverse is a true inverse when the norm is invertible.",
 "every base field of suitable characteristic and operands","seven-point interpolation identities over all operands",
 [FF+"quartic_extension_field.h"])
p("C29","In-place operators tolerate aliasing",
 "x *= x (MulInPlace with the operand aliasing the receiver) gives the same value as x * x for every extension-field type.",
 "every operand and every tower level","tests multiply distinct objects",
 [FF+"quadratic_extension_field.h MulInPlace, DoMul",FF+"cubic_extension_field.h",FF+"quartic_extension_field.h"])
p("C30","Sparse Miller-loop multiplications equal dense ones",
 "MulInPlaceBy034/014 on Fp6/Fp12 and MulInPlaceBy1/01 on cubic Fp6 equal multiplication by the dense element with the omitted coefficients zero.",
 "every operand","identities over all operands",
 [FF+"fp12.h",FF+"fp6.h"])
p("C31","Cyclotomic squaring and inversion agree with the generic ones on the cyclotomic subgroup",
 "On elements of the cyclotomic subgroup FastCyclotomicSquare equals Square and FastCyclotomicInverse equals Inverse.",
 "every Fp12 tower with p = 1 mod 6, every cyclotomic element","membership is a polynomial condition over all elements",
 [FF+"cyclotomic_multiplicative_subgroup.h",FF+"fp12.h",FF+"quadratic_extension_field.h"])
PU=W+"math/polynomials/univariate/"
p("C32","Dense polynomial ring operations are polynomial arithmetic and keep the canonical form",
 "Add, Sub, Negate, Mul, scalar Mul/Div of dense polynomials give the coefficient sequence of the mathematical result, never with a zero leading coefficient; equality of representations is equality of polynomials.",
 "every pair of coefficient vectors","cancellation patterns of leading terms are unbounded",
 [PU+"univariate_polynomial_ops.h",PU+"univariate_dense_coefficients.h"])
p("C33","Polynomial division satisfies the division identity",
 "DivMod(f,g) fails exactly when g is zero, otherwise f = q*g + r with r zero or deg r < deg g.",
 "every pair of polynomials with a nonzero dividend (a zero dividend is C75)","degrees are unbounded; zero operands are special-cased",
 [PU+"univariate_polynomial_ops.h Divide, DivMod, Mod"])
p("C34","Dense evaluation equals the sum of terms for every chunking",
 "Evaluate(x) of a dense polynomial equals sum c_i x^i for every thread count.",
 "every polynomial, point, thread count","thread counts and chunk boundaries",
 [PU+"univariate_dense_coefficients.h Evaluate, DoEvaluate, HornerEvaluate"])
p("C35","Sparse polynomial operations agree with the dense ones",
 "Add, Sub, Mul, Negate, coefficient lookup and conversion to dense of sparse polynomials agree with the dense/mathematical operations and keep terms sorted by degree with non-zero coefficients.",
 "every pair of sparse polynomials","merge/cancellation patterns unbounded",
 [PU+"univariate_polynomial_ops.h",PU+"univariate_sparse_coefficients.h"])
p("C36","Sparse evaluation equals the sum of terms",
 "Evaluate(x) of a sparse polynomial equals sum c_i x^(d_i), and the value of its dense form.",
 "every polynomial of degree below the order of the prime field, and every point (higher degrees are C76)","degrees and term patterns are unbounded",
 [PU+"univariate_sparse_coefficients.h Evaluate"])
p("C37","FromRoots and Lagrange interpolation produce the announced polynomial",
 "FromRoots(r) is the product of (X-r_i); LagrangeInterpolate(points, evals) for distinct points returns a polynomial of degree < n taking the given values, independent of threads, and rejects mismatched sizes.",
 "every root list; every list of distinct points and values; every chunking","unbounded lengths",
 [PU+"univariate_dense_coefficients.h FromRoots",PU+"lagrange_interpolation.h"])
p("C38","Fold computes even + r*odd",
 "Fold(r) of a polynomial f(X)=f_e(X^2)+X f_o(X^2) returns f_e + r f_o, without reading outside the coefficient vector.",
 "every sparse polynomial, every dense polynomial with an even number of coefficients (odd is C78), and r","an out-of-bounds read is silent",
 [PU+"univariate_dense_coefficients.h Fold",PU+"univariate_sparse_coefficients.h Fold"])
p("C39","Radix-2 FFT evaluates the polynomial on the coset",
 "FFT(f) over a radix-2 domain with generator g and offset h returns [f(h), f(h g), ..., f(h g^(n-1))] for every polynomial with at most n coefficients, whether or not the degree-aware shortcut is taken.",
 "every domain size 2^k, every field with a 2^k-th root of unity, every offset and polynomial","sizes and shortcut thresholds are unbounded",
 [PU+"radix2_evaluation_domain.h",PU+"evaluations_utils.h",PU+"univariate_evaluation_domain.h"])
p("C40","IFFT inverts FFT",
 "IFFT(FFT(f)) = f and FFT(IFFT(e)) = e over every radix-2 domain and coset.",
 "every domain, polynomial and evaluation vector","as above",
 [PU+"radix2_evaluation_domain.h",PU+"univariate_evaluation_domain.h"])
p("C41","Lagrange coefficients interpolate",
 "EvaluateAllLagrangeCoefficients(tau) returns the values L_i(tau), so that sum f(h g^i) L_i(tau) = f(tau) for every polynomial of degree < n, both for tau inside and outside the domain, for every chunking; EvaluatePartialLagrangeCoefficients is its sub-range.",
 "every domain, tau and range","tau inside/outside, chunk recurrences",
 [PU+"univariate_evaluation_domain.h EvaluateAllLagrangeCoefficients, EvaluatePartialLagrangeCoefficients"])
p("C42","Vanishing and filter polynomials",
 "GetVanishingPolynomial vanishes exactly on the coset and EvaluateVanishingPolynomial is its value; GetFilterPolynomial(sub) of a domain without offset is 1 on the subdomain (a subgroup or a coset in it) and 0 on the rest of the domain, it aborts exactly when the subdomain is not contained, and EvaluateFilterPolynomial(sub, tau) is its value at tau when the subdomain is a subgroup.",
 "every domain, coset, subdomain and tau","cosets of cosets are rarely tested",
 [PU+"univariate_evaluation_domain.h GetVanishingPolynomial, EvaluateVanishingPolynomial, GetFilterPolynomial, EvaluateFilterPolynomial"])
p("C43","Mixed-radix FFT evaluates the polynomial",
 "FFT over a mixed-radix domain of size 2^s q^t returns the evaluations of the polynomial on the domain.",
 "every size 2^s q^t","tests only exercise power-of-two sizes",
 [PU+"mixed_radix_evaluation_domain.h SerialFFT"])
p("C44","The twiddle cache returns complete tables in every history",
 "GetItem(domain, packed_vec_only) returns tables that contain everything the caller asked for, whatever requests were made before.",
 "every history of requests","depends on the order of requests in the whole process",
 [PU+"radix2_twiddle_cache.h GetItem"])
p("C45","Evaluation-form arithmetic is pointwise",
 "Add/Sub/Mul/Div/Negate on UnivariateEvaluations correspond pointwise to the operations on the values, treating the empty vector as the zero polynomial; division reports failure exactly when the divisor is empty, or the dividend is non-empty and the sizes differ or a divisor value is zero; vectors over the same domain are equal exactly when all values are.",
 "every pair of evaluation vectors","sizes and zero representations",
 [PU+"univariate_evaluations_ops.h",PU+"univariate_evaluations.h"])
EC=W+"math/elliptic_curves/"
p("C46","Jacobian point arithmetic is the curve's group law",
 "Add (Jacobian+Jacobian, Jacobian+affine, affine+affine), Double, Negate and equality (pure and in place) on Jacobian points of y^2=x^3+b represent the affine chord-and-tangent law, including identity, doubling and inverse cases, and stay on the curve; on y^2=x^3+ax+b with a != 0 the same holds of Add for different points (doubling there is C84).",
 "every field of characteristic other than 2, every curve, all points and all representatives of them","coordinate identities over all points and representatives",
 [EC+"short_weierstrass/jacobian_point_impl.h",EC+"short_weierstrass/jacobian_point.h"])
p("C47","Projective point arithmetic is the curve's group law",
 "Add (projective, affine right operand), Double, affine DoubleProjective, Negate and equality on homogeneous projective points of y^2=x^3+ax+b represent the affine chord-and-tangent law, including identity, doubling and inverse cases, and stay on the curve; the in-place forms agree.",
 "every curve, all points and representations","coordinate identities over all points",
 [EC+"short_weierstrass/projective_point_impl.h",EC+"short_weierstrass/projective_point.h"])
p("C48","XYZZ point arithmetic is the curve's group law",
 "Add (XYZZ, affine right operand), Double, affine DoubleXYZZ, Negate and equality on extended Jacobian (XYZZ) points represent the affine chord-and-tangent law, keep zz^3 = zzz^2 and stay on the curve; the in-place forms agree.",
 "every curve, all points and representations","coordinate identities over all points",
 [EC+"short_weierstrass/point_xyzz_impl.h",EC+"short_weierstrass/affine_point_impl.h"])
p("C49","Point conversions preserve the point",
 "Conversions from affine, Jacobian and projective points to every other representation preserve the represented point (to affine: on curves with b != 0), and BatchNormalize of Jacobian and projective points equals mapping ToAffine for every thread count below 128, and is refused when the sizes differ.",
 "every point and representation, every thread count below 128","representations with Z=-1 or other special values",
 [EC+"short_weierstrass/jacobian_point.h",EC+"short_weierstrass/point_xyzz.h",EC+"short_weierstrass/projective_point.h",EC+"short_weierstrass/affine_point.h"])
p("C50","Pippenger MSM equals the sum of scalar multiples",
 "Pippenger and its parallel adapter return sum s_i*P_i for every window size, digit representation (signed or unsigned windows), strategy and thread count, and reject size mismatches.",
 "every commutative group, bases, scalars, strategies","signed-digit carries at the top window; chunking",
 [EC+"msm/algorithms/pippenger/pippenger.h",EC+"msm/algorithms/pippenger/pippenger_base.h",EC+"msm/algorithms/pippenger/pippenger_adapter.h"])
p("C51","Fixed-base MSM equals scalar multiplication",
 "FixedBaseMSM.ScalarMul(s) = s*base for every scalar and window configuration.",
 "every scalar, modulus width and window","last-window handling",
 [EC+"msm/fixed_base_msm.h"])
p("C52","GLV decomposition is correct and short",
 "For each of the four curve configurations, GLV::Decompose(k) returns k1, k2 with k1 + lambda*k2 = k (mod r), both below 2^128 in absolute value.",
 "every scalar (and every configuration whose rows vanish modulo r)","2^254 scalars; truncating division of signed numbers",
 [EC+"msm/glv.h",W+"math/base/bit_iterator.h",W+"math/base/gmp/bit_traits.h"])
CR=W+"crypto/"
BM=CR+"commitments/merkle_tree/binary_merkle_tree/binary_merkle_tree.h"
p("C53","Binary Merkle tree: honest openings verify",
 "After Commit(leaves) with 2^k leaves, k >= 1, and 2^l leaves per parallel subtree, l >= 1, the opening proof created for any index verifies against the root with the hash of that leaf, and the root is the recursive pairwise hash of the leaves, whatever the storage held before and whatever the order of the parallel loops. Leaf counts that are not powers of two or exceed the storage are rejected.",
 "every leaf vector of power-of-two length, index, hash function and parallelisation threshold","sizes and thresholds are unbounded",
 [BM])
p("C54","Binary Merkle tree: openings are binding",
 "If two different leaf hashes both verify against the same root with proofs of the same shape (same length and side bits), then an explicit collision of the parent hash is found in the proofs.",
 "every hash function, root, proofs","a security statement over all adversarial proofs",
 [BM+" DoVerifyOpeningProof"])
FM=CR+"commitments/merkle_tree/field_merkle_tree/"
p("C55","Mixed-matrix commitment: honest openings verify",
 "For every batch of non-empty matrices in any order, in which heights that round up to the same power of two are equal, and every index that addresses an existing row of each matrix (every index below the tallest height when the heights are powers of two), CreateOpeningProof(index) returns the addressed rows and a proof that VerifyOpeningProof accepts against the commitment.",
 "every batch, index, hash and compression function","batch shapes are unbounded",
 [FM+"field_merkle_tree.h",FM+"field_merkle_tree_mmcs.h"])
p("C56","Mixed-matrix commitment: openings are binding",
 "Two accepted openings with the same heights, index, row widths and a proof length of log2 of the tallest padded height that differ in an opened row or in the proof yield a collision of the hash or the compression function among the calls the verifier makes.",
 "every adversarial pair of openings","security statement",
 [FM+"field_merkle_tree_mmcs.h DoVerifyOpeningProof"])
p("C57","Sponge absorption is independent of how the input is split",
 "Absorb takes its elements one by one (permuting when a block is full or when switching from squeezing); hence Absorb(x);Absorb(y) leaves the sponge in the same state as Absorb(x++y) for every non-empty y.",
 "every permutation, rate, input split and start state","all splits and rates",
 [CR+"hashes/sponge/poseidon/poseidon_sponge_base.h Absorb, AbsorbInternal"])
p("C58","Sponge squeezing is a stream",
 "Squeezing n elements yields what n single-element squeezes yield, and squeezing m and then n elements yields the same elements as squeezing m+n at once, as long as no single request made in the middle of a block asks for exactly the rate (see C97).",
 "every permutation, rate, state, m, n","all block offsets",
 [CR+"hashes/sponge/poseidon/poseidon_sponge_base.h SqueezeNativeFieldElements, SqueezeInternal"])
p("C59","Duplex challenger: challenges are a deterministic function of the transcript and always depend on pending observations",
 "No history of Observe and Sample is undefined, and the buffers never exceed rate and width. For every transcript (rounds of observations followed by samples) the challenges are exactly the lanes, last first, of the state in which every observation has been absorbed block by block, followed by its iterates under the permutation: each challenge depends on all earlier observations, and pending outputs are dropped by an observation.",
 "every history of observe/sample operations","histories",
 [CR+"challenger/duplex_challenger.h",CR+"challenger/challenger.h"])
p("C60","Grinding returns a valid witness under every schedule",
 "Grind(bits) returns a witness that CheckWitness accepts on the verifier's identical challenger; it aborts only if no witness exists in the range.",
 "every schedule of the parallel search, range and chunking","thread schedules",
 [CR+"challenger/challenger.h Grind, CheckWitness, SampleBits"])
p("C61","FRI folding is consistent between prover and verifier",
 "FoldMatrix applied to all rows equals FoldRow at every index, folding the evaluations of f over a coset gives the evaluations of f_e + beta f_o over the squared coset, and an honest commit phase is accepted by VerifyQuery at every index.",
 "every polynomial, domain size, beta, index","unbounded sizes",
 [CR+"commitments/fri/prove.h",CR+"commitments/fri/verify.h",CR+"commitments/fri/two_adic_fri.h"])
ZK=W+"zk/"
p("C62","The permutation cycle store is the union-find of the copy constraints",
 "After any sequence of MergeCycle calls, CheckSameCycle(a,b) holds exactly when a and b are connected by the merged pairs; the mapping is a permutation whose cycles are exactly the classes; GetCycleSize is the class size.",
 "every grid size and history of merges","histories",
 [ZK+"plonk/permutation/cycle_store.h",ZK+"plonk/permutation/cycle_store.cc"])
p("C63","Lookup permutation is a valid halo2 witness",
 "PermuteExpressionPair succeeds exactly when every input value occurs in the table (counting usable rows), and then A' and S' are permutations of the inputs and table, with A'_0=S'_0 and for each row A'_i=S'_i or A'_i=A'_(i-1).",
 "every input and table vector","multiplicities",
 [ZK+"lookup/halo2/permute_expression_pair.h"])
p("C64","Selector compression preserves selector semantics",
 "After compression, each selector's substituted expression is non-zero at a row exactly when the selector was enabled there (characteristic larger than the number of selectors in a combination); every selector receives exactly one assignment.",
 "every selector table, degrees and maximum degree","combinatorics of selectors",
 [ZK+"plonk/constraint_system/selector_compressor.h",ZK+"plonk/constraint_system/exclusion_matrix.h"])
p("C65","Selector compression respects the degree bound",
 "Substituting the compressed expressions never raises a gate above the degree of the constraint system, which the compression takes as its limit. (Refuted: the limit is checked with the degree of the first selector of a combination only. It holds when the selectors come in order of non-increasing degree.)",
 "every selector table, degrees and maximum degree","needs selectors of different degrees in one combination",
 [ZK+"plonk/constraint_system/selector_compressor.h CombineSimpleSelectors"])
p("C66","Bit utilities compute exact logarithms, alignments and bit reversals",
 "IsPowerOfTwo recognises exactly the powers of two; AlignDown/AlignUp return the nearest multiple of a power-of-two alignment; Log2Floor/Log2Ceiling/CheckedLog2 bracket the argument by powers of two (-1 for zero); ReverseBitsLen(x,k) mirrors the lowest k bits and is an involution for every k from 0 to 64.",
 "every word, width, alignment and bit length","2^64 words times 65 lengths",
 [W+"base/bits.h",W+"base/bits.cc BitRev"])
p("C67","The extended gcd never overflows and returns Bezout coefficients",
 "For non-negative int64 inputs EGCD::Compute terminates without signed overflow and returns (s, t, r) with r the gcd and s*x + t*y = r; hence the inverse of a non-Montgomery 32-bit field element is defined for every modulus, and is the modular inverse whenever one exists.",
 "all pairs of non-negative int64 values; all 31-bit moduli and elements","worst-case quotient sequences need Fibonacci-like inputs",
 [M+"base/egcd.h",M+"finite_fields/small_prime_field.h Inverse"])
p("C68","Every generated 32-bit field multiplies modulo its modulus",
 "For every modulus accepted by the generator, with or without a user-supplied reduction, Add, Sub, Negate and Mul of a non-Montgomery 32-bit field are arithmetic modulo the modulus.",
 "all moduli, reductions and canonical pairs","depends on the configured reduction and on the modulus width",
 [M+"finite_fields/generator/prime_field_generator/prime_field_generator.cc",M+"finite_fields/generator/prime_field_generator/small_prime_field_config.h.tpl Reduce",M+"finite_fields/small_prime_field.h"])
p("C69","A deque's own element may be appended to it",
 "push_back(d[i]) appends a copy of element i, also when the push makes the deque reallocate its buffer.",
 "every reachable deque and index","needs the reallocating case and a memory checker",
 [W+"base/containers/circular_deque.h circular_deque::emplace_back, ExpandCapacityIfNecessary"])
p("C70","FrobeniusMap(e) is exponentiation by p^e",
 "For every element x of Fp2, Fp3, Fp4 (over Fp2 with non-residue u, or quartic over Fp), Fp6 (cubic over Fp2 or quadratic over Fp3) and Fp12, and every e, FrobeniusMap(e) returns x^(p^e).",
 "every tower, element and exponent e, including e beyond the degree","the tables are derived from the non-residues of each configuration; tests compare a few levels of a few curves",
 [FF+"fp2.h",FF+"fp3.h",FF+"fp4.h",FF+"fp6.h",FF+"fp12.h",FF+"quadratic_extension_field.h FrobeniusMapInPlace",FF+"cubic_extension_field.h FrobeniusMapInPlace",FF+"quartic_extension_field.h FrobeniusMapInPlace"])
p("C71","CyclotomicPow equals Pow on the cyclotomic subgroup",
 "For every element x of the cyclotomic subgroup of Fp12 and every n-limb exponent e, x.CyclotomicPow(e) is x^e.",
 "every tower, cyclotomic element and exponent","the exponent space is exhausted only by proof; the failing exponent is a single value",
 [FF+"cyclotomic_multiplicative_subgroup.h CyclotomicPow, DoCyclotomicPow",M+"base/big_int.h ToNAF"])
p("C72","Generated and hand-written MulByNonResidue multiply by the non-residue",
 "The code emitted by the extension-field generator for an integer non-residue, the shift for (0,1) and (0,1,0), and the overrides of bn254 and bls12_381 return the product of the argument and the non-residue.",
 "every 64-bit non-zero integer (except -2^63) and every field element","the generator is run on a handful of configurations only",
 [FF+"generator/generator_util.cc GenerateFastMultiplication",FF+"generator/ext_field_generator/ext_field_generator.cc",M+"elliptic_curves/bn/bn254/BUILD.bazel",M+"elliptic_curves/bls12/bls12_381/BUILD.bazel"])
p("C73","The generated non-residue-is-minus-one flag is set only for -1",
 "kNonResidueIsMinusOne, which selects the squaring formula valid only for x^2 = -1, is emitted as true exactly when the non-residue is -1.",
 "every list of non-residue coefficients","no shipped configuration has first coefficient -1 and another non-zero coefficient",
 [FF+"generator/ext_field_generator/ext_field_generator.cc GenerateConfigHdr",FF+"quadratic_extension_field.h DoSquareInPlace"])
p("C74","FrobeniusMap on a quadratic Fp4 is exponentiation by p^e for any non-residue of Fp2",
 "Fp4 accepts any non-residue of Fp2 (the Mersenne-31 Fp4 uses 2+i); FrobeniusMap(e) returns x^(p^e) there too.",
 "every prime, every non-residue of Fp2","needs the coefficient identity z^((p-1)/2); no unit test calls FrobeniusMap on that field",
 [FF+"fp4.h Fp4Config::Init",M+"circle/m31/BUILD.bazel",FF+"quadratic_extension_field.h FrobeniusMapInPlace"])
p("C75","Dividing the zero polynomial gives quotient and remainder zero",
 "DivMod(0, g) for nonzero g is (0, 0); dividing by zero has no result, also for a zero dividend.",
 "every divisor","the zero operand is special-cased in several overloads",
 [PU+"univariate_polynomial_ops.h Divide, Div, Mod"])
p("C76","Sparse evaluation is right for degrees above the field order",
 "Evaluate(x) of a sparse polynomial equals sum c_i x^(d_i) also when a degree is at least the order of the prime field (allowed up to MaxDegree).",
 "every polynomial, degree and point","needs degrees at least the characteristic",
 [PU+"univariate_sparse_coefficients.h Evaluate"])
p("C77","Lagrange interpolation rejects inputs without an answer",
 "LagrangeInterpolate with a repeated point and contradictory values, or with no points, reports failure instead of returning a polynomial or reading outside its buffers.",
 "every list of points and values","malformed inputs",
 [PU+"lagrange_interpolation.h"])
p("C78","Fold of a dense polynomial with an odd number of coefficients",
 "Fold(r) of a dense polynomial with an odd number of coefficients treats the missing last odd coefficient as zero.",
 "every odd-length coefficient vector and r","an out-of-bounds read is silent",
 [PU+"univariate_dense_coefficients.h Fold"])
p("C79","Filter polynomials of coset domains",
 "Also when the domain or the subdomain is a coset, GetFilterPolynomial(sub) is 1 on the subdomain and 0 on the rest of the domain, and EvaluateFilterPolynomial(sub, tau) is its value at tau.",
 "every coset, contained coset and tau","the tests only use domains without offset",
 [PU+"univariate_evaluation_domain.h GetFilterPolynomial, EvaluateFilterPolynomial"])
p("C80","Equality of evaluation vectors is an equivalence relation",
 "operator== on UnivariateEvaluations is reflexive, symmetric and transitive.",
 "all triples of evaluation vectors of any sizes","relates triples of values, including the two representations of zero",
 [PU+"univariate_evaluations.h operator=="])
p("C81","ComputeAdicity returns the multiplicity of the base",
 "ComputeAdicity(k, n) is the unique a with n = k^a t and k not dividing t.",
 "every base k >= 2 and every n > 0","unbounded inputs",
 [W+"math/finite_fields/prime_field_util.cc ComputeAdicity"])
p("C82","ComputeTrace returns the cofactor",
 "ComputeTrace(k, n) is the t with n = k^a t and k not dividing t.",
 "every base k >= 2 and every n > 0","unbounded inputs",
 [W+"math/finite_fields/prime_field_util.cc ComputeTrace"])
p("C83","The default degree bound of a mixed-radix domain is the order of its largest subgroup minus one",
 "MaxDegreeForMixedRadixEvaluationDomain<F>() is base^adicity * 2^two_adicity - 1, so that every polynomial of such a domain can be held.",
 "every field configuration","ranges over all field configurations; tests use explicit bounds",
 [PU+"mixed_radix_evaluation_domain.h MaxDegreeForMixedRadixEvaluationDomain"])
p("C84","Jacobian doubling on curves with a != 0",
 "Double of a Jacobian point on y^2=x^3+ax+b with a != 0 is the tangent doubling of the represented point.",
 "every such curve and point","the shipped curves all have a = 0, so no test runs this branch",
 [EC+"short_weierstrass/jacobian_point_impl.h"])
p("C85","Conversions from XYZZ preserve the point",
 "ToAffine, ToJacobian and ToProjective of an XYZZ point represent the same point, and BatchNormalize equals mapping ToAffine.",
 "every XYZZ point, including those with zz = 1 and zzz = -1","zz = 1 with zzz = -1 is hit with negligible probability on large fields",
 [EC+"short_weierstrass/point_xyzz.h"])
p("C86","IsOnCurve and affine equality",
 "IsOnCurve accepts exactly the finite points of the curve in each of the four representations (never infinity); affine equality, Negate and IsZero agree with the represented points.",
 "every curve, point and representative","all representatives of all points",
 [EC+"short_weierstrass/sw_curve.h",EC+"short_weierstrass/affine_point.h"])
p("C87","Every curve point has an affine form",
 "Every point of the curve is represented by some affine point, and ToAffine finds it.",
 "every curve and point","curves with b = 0",
 [EC+"short_weierstrass/affine_point.h",EC+"short_weierstrass/jacobian_point.h"])
p("C88","GLV multiplication equals scalar multiplication",
 "GLV::Mul(P,k) = k*P. (Refuted: when k1 and k2 have different limb counts the bits of k2 are read misaligned, for example for k = 2^127 or k = lambda on BN254 G1. Proved when the limb counts agree or k2 is 0; the exact wrong value is also proved.)",
 "every scalar and point","k1 and k2 of different limb counts are astronomically rare for random scalars",
 [EC+"msm/glv.h",W+"math/base/bit_iterator.h",W+"math/base/gmp/bit_traits.h"])
p("C89","An MSM leaves the process's thread limit as it was",
 "After RunWithStrategy the OpenMP thread limit is what it was before. (Refuted for kParallelWindowAndTerm, which restores the limit from the value it has just overwritten; later parallel loops run with 2 threads. Proved for the other strategies.)",
 "every strategy, thread limit and window count","the effect is only visible as slower unrelated code",
 [EC+"msm/algorithms/pippenger/pippenger_adapter.h RunWithStrategy"])
p("C90","Binary Merkle tree: Commit is defined on every leaf vector it accepts",
 "Commit never reads or writes outside the storage for any leaf count and parallelisation threshold that it does not reject.",
 "every power-of-two leaf count and threshold","the failing settings read one element past a vector and usually appear to work",
 [BM+" DoCommit, BuildTreeFromLeaves, BuildTree"])
p("C91","Mixed-matrix commitment: every index below the tallest height can be opened",
 "For every batch the commitment accepts and every index below the tallest height, CreateOpeningProof reads only existing rows.",
 "every accepted batch, index","needs a height that is not a power of two together with a large index",
 [FM+"field_merkle_tree_mmcs.h DoCreateOpeningProof"])
p("C92","Mixed-matrix commitment: the verifier rejects openings of the wrong shape",
 "VerifyOpeningProof accepts no opening whose row widths or proof length differ from those of the committed matrices, so binding needs no check by the caller.",
 "every adversarial opening and proof","adversarial shapes",
 [FM+"field_merkle_tree_mmcs.h DoVerifyOpeningProof, CountLayers"])
p("C93","Mixed-matrix commitment: the commitment covers every matrix in the batch",
 "Commitments to batches that differ in one matrix differ, or a collision is exhibited, in every build mode.",
 "every batch","the check that would notice is compiled out of release builds",
 [FM+"field_merkle_tree.h DoBuildCpu"])
p("C94","Absorbing an empty input is a no-op",
 "Absorb of an empty input leaves the sponge observably unchanged.",
 "every sponge state","needs an empty input after a full block",
 [CR+"hashes/sponge/poseidon/poseidon_sponge_base.h Absorb"])
p("C95","Padding-free sponge: equal-length collisions are inner collisions",
 "Hashing is defined for every input; two different inputs of the same length that end in the same state lead, at some earlier block, to different states that agree on all lanes not overwritten by the next block.",
 "every injective permutation, rate, width and pair of inputs","collision resistance reductions are about all inputs",
 [CR+"hashes/sponge/padding_free_sponge.h DoHash"])
p("C96","Padding-free sponge separates inputs of different lengths",
 "Inputs of different lengths do not collide by construction.",
 "every permutation","structural collisions for all permutations",
 [CR+"hashes/sponge/padding_free_sponge.h DoHash"])
p("C97","A squeeze never repeats elements of the block it starts in",
 "Squeezing in several requests, including one of exactly the rate in the middle of a block, yields the same stream as squeezing at once.",
 "every permutation and request sizes","needs a squeeze that starts mid-block with exactly rate elements",
 [CR+"hashes/sponge/poseidon/poseidon_sponge_base.h SqueezeInternal"])
p("C98","Different observations from the initial duplex challenger give different transcripts",
 "Observing x and observing x followed by 0 lead to states that are distinguished by the challenges.",
 "every permutation","structural collisions for all permutations",
 [CR+"challenger/duplex_challenger.h DoObserve, Duplex"])
p("C99","Hash challenger: outputs chain every observation",
 "For every transcript the challenges are the elements, last first, of the hash of the previous block of outputs followed by the observations since, and of its iterated hashes.",
 "every hash function of fixed positive output length and every history","histories",
 [CR+"challenger/hash_challenger.h"])
p("C100","Multi-field challenger packs and splits exactly",
 "No history is undefined; each lane absorbs a group of small elements as a base-2^32 number modulo the big modulus (injectively when it has room), and yields its lowest 64-bit digits modulo the small modulus; the challenges of every transcript follow.",
 "every permutation, group size, width, modulus and history","histories; boundary group sizes",
 [CR+"challenger/multi_field32_challenger.h",CR+"challenger/multi_field32_conversions.h Reduce, Split"])
p("C101","Splitting a big field element yields reduced small elements",
 "Split returns canonical elements of the small field for every big element, also when the small field is not in Montgomery form.",
 "every small modulus and big element","needs a digit whose low half is at least the modulus",
 [CR+"challenger/multi_field32_conversions.h Split",M+"finite_fields/small_prime_field.h PrimeField"])
p("C102","GetAllLabels lists each cell of a cycle once (refuted)",
 "CycleStore::GetAllLabels returns the base of the cycle twice, first and last: the claim that it lists the cells of a cycle without repetition is refuted.",
 "every grid and cell","the repetition is in every result, but only a caller counting the labels sees it",
 [ZK+"plonk/permutation/cycle_store.cc"])
p("C103","Copy rejects rows outside the table (refuted)",
 "PermutationAssembly::Copy checks CHECK_LE(row, rows), so row = rows passes and the cycle store is indexed outside its tables: the claim that the checks exclude every invalid row is refuted.",
 "every number of columns and rows","boundary row",
 [ZK+"plonk/permutation/permutation_assembly.h"])
p("C104","The permutation columns encode exactly the copy constraints",
 "For a domain of 2^k rows and at most T columns (T the odd part of the group order), the labels delta^c omega^r are pairwise different, every entry of GeneratePermutations is the label of a cell connected to it, the entries are pairwise different, and an assignment satisfies all copy constraints exactly when it agrees on each cell with the cell whose label is its entry.",
 "every field, generator, domain size, number of columns and history of copies","histories and group structure",
 [ZK+"plonk/permutation/permutation_assembly.h",ZK+"plonk/permutation/unpermuted_table.h",ZK+"plonk/permutation/permutation_utils.h"])
p("C105","Lookup argument: completeness",
 "If every usable input row occurs in the usable table and the challenges are not negatives of usable values, PermuteExpressionPair succeeds, the grand product exists, and with them all five expressions the lookup verifier evaluates are zero on every row of the domain, including the blinded rows and the wrap-around.",
 "every field, domain size, number of blinding factors, input, table, blinding values and challenges","needs all rows and challenges at once; a wrong boundary row shows only for some sizes",
 [ZK+"lookup/halo2/permute_expression_pair.h",ZK+"lookup/halo2/prover_impl.h",ZK+"lookup/halo2/verifier.h",ZK+"plonk/permutation/grand_product_argument.h"])
p("C106","Lookup argument: soundness on the domain",
 "Whatever columns a prover chooses, if the verifier's five expressions vanish on every row then the permuted input only holds values of the permuted table and (challenges not hitting a zero) the two products agree; and if more than 3 u |X| challenge pairs out of X x X can be satisfied for fixed columns, every usable input is in the table.",
 "every field, domain, columns (adversarial) and set of challenges","adversarial columns; counting over challenges",
 [ZK+"lookup/halo2/verifier.h"])
p("C107","Permutation argument: completeness",
 "If the assignment satisfies the copy constraints and the challenges hit no zero, the chunked grand products exist, there are ceil(columns / chunk length) of them, the running product ends in 1, and every expression of the permutation verifier vanishes on every row of the domain.",
 "every field, domain size, number of columns, chunk length, number of threads, history of copies, assignment and challenges","chunk boundaries and wrap-around rows for every size",
 [ZK+"plonk/permutation/permutation_prover_impl.h",ZK+"plonk/permutation/permutation_table_store.h",ZK+"plonk/permutation/permutation_verifier.h",ZK+"plonk/permutation/grand_product_argument.h"])
p("C108","Permutation argument: soundness on the domain",
 "For fixed columns, if more than 3 (columns x usable rows) |X| challenge pairs out of X x X admit grand products that make the verifier's expressions vanish on every row, the assignment satisfies every copy constraint.",
 "every field, domain, history of copies, assignment (adversarial), set of challenges and chunk length","adversarial assignments; counting over challenges",
 [ZK+"plonk/permutation/permutation_verifier.h",ZK+"plonk/permutation/permutation_assembly.h"])
p("C109","Compressing the selectors of a constraint system keeps the meaning of every gate",
 "CompressSelectors never aborts on gates with at most one simple selector as a factor. Afterwards, at every row where the new fixed columns hold the computed values, each gate polynomial vanishes exactly when the original did with its selectors read as 1 or 0, and gates without simple selectors keep their exact value.",
 "every selector table, every list of gate polynomials, every row and assignment","depends on how selectors overlap",
 [ZK+"plonk/constraint_system/constraint_system.h CompressSelectors",ZK+"plonk/expressions/evaluator/selector_replacer.h",ZK+"plonk/expressions/evaluator/simple_selector_extractor.h"])
p("C110","The custom gate graph evaluates the gates it was built from",
 "CustomGateEvaluator's graph, built from any gate polynomials over existing columns, evaluates at every row to the Horner combination by y of the gate values at that row (with rotations wrapping around), starting from the previous value, whatever earlier rows left in the reused intermediates.",
 "every table, list of gate polynomials, row, challenges and stale intermediates","common-subexpression sharing and constant folding depend on the whole history of expressions",
 [ZK+"plonk/vanishing/graph_evaluator.h",ZK+"plonk/vanishing/calculation.h",ZK+"plonk/vanishing/value_source.h",ZK+"plonk/custom_gate/custom_gate_evaluator.h"])
p("C111","Lookup and shuffle graphs compress and shift their expressions",
 "The graph of a halo2 lookup evaluates at every row to (theta-compressed inputs + beta) * (theta-compressed table + gamma); the graphs of the log-derivative lookup and of the shuffle evaluate to one theta-compressed side plus beta or gamma.",
 "every table, expressions, row and challenges","sharing between both sides",
 [ZK+"lookup/halo2/evaluator.h",ZK+"lookup/log_derivative_halo2/evaluator.h",ZK+"shuffle/evaluator.h"])
p("C112","FRI queries bind the folding chain",
 "If each commitment of a proof can be opened to one matrix only and VerifyQuery accepts every index with the same final value, the committed matrices are exactly the foldings an honest prover would have made from the reduced openings with the verifier's challenges, and the last folding is constantly the final value.",
 "every field, sizes, list of inputs, challenges and (adversarial) openings","adversarial proofs, all indices",
 [CR+"commitments/fri/verify.h VerifyQuery",CR+"commitments/fri/fri_config.h"])
p("C113","FRI with an input of exactly the blowup size",
 "A proof the prover makes for low-degree inputs verifies also when an input has exactly 2^log_blowup entries (a committed matrix with one row).",
 "every field, list of inputs, commitment scheme and challenger","a boundary size no test uses",
 [CR+"commitments/fri/prove.h",CR+"commitments/fri/verify.h"])
p("C114","Two-adic cosets: points, splitting, disjoint cosets, selectors",
 "For a TwoAdicMultiplicativeCoset: GetZpAtPoint is zero exactly at its points; GetNextPoint walks round them; SplitDomains(2^j) partitions them into 2^j cosets of equal size, the c-th holding the points with index c modulo 2^j; CreateDisjointDomain(m) returns the smallest coset of at least m points and shares no point; GetSelectorsAtPoint gives the quotients of the vanishing polynomial and aborts exactly on the coset; GetSelectorsOnCoset on a disjoint coset of equal size gives the same selectors point by point, for any thread count.",
 "every field with a two-adic root, every size up to the two-adicity, shift, point and thread count","sizes and shifts unbounded",
 [CR+"commitments/fri/two_adic_multiplicative_coset.h",CR+"commitments/fri/lagrange_selectors.h"])
p("C115","Selectors on a larger coset",
 "GetSelectorsOnCoset returns the selectors at the points of any disjoint coset at least as large as the domain (the quotient domain).",
 "every domain and larger coset","the unit test only uses equal sizes",
 [CR+"commitments/fri/two_adic_multiplicative_coset.h GetSelectorsOnCoset"])
p("C116","Barycentric interpolation over a coset",
 "TwoAdicFRI's interpolation of a matrix of values over a coset returns, for each column, the value at the given point of the polynomial with these values, for every point outside the coset and every thread count.",
 "every field with a two-adic root, size, shift, columns, outside point and thread count","all polynomials and points",
 [CR+"commitments/fri/two_adic_fri.h InterpolateCoset"])
p("C117","Barycentric interpolation at a point of the coset",
 "At a point of the coset itself, the interpolation returns the value the matrix holds there.",
 "every coset, point of it and columns","needs a point on the coset, which random tests miss",
 [CR+"commitments/fri/two_adic_fri.h InterpolateCoset"])
p("C118","Batch transforms of a matrix",
 "FFTBatch replaces each column of a matrix with 2^k rows (k > 0) by the values of that column's polynomial on the subgroup, IFFTBatch interpolates each column and undoes FFTBatch, and a matrix with another number of rows aborts, for every order in which the parallel row loops run.",
 "every field with a two-adic root, size, number of columns, matrix and schedule","all schedules and sizes",
 [PU+"radix2_evaluation_domain.h FFTBatch",PU+"two_adic_subgroup.h IFFTBatch"])
p("C119","Low-degree extension of a matrix onto a coset",
 "CosetLDEBatch(mat, added_bits, shift, out, reverse_at_last) fills out with the values of each column's interpolating polynomial on shift times the subgroup of size 2^added_bits times larger, in natural row order or, when reverse_at_last is false, bit-reversed.",
 "every field with a two-adic root, sizes, shift, number of columns, matrix, thread count and schedule","all schedules, sizes and thread counts",
 [PU+"radix2_evaluation_domain.h CosetLDEBatch",PU+"radix2_evaluation_domain.h ExpandWithZeroPad"])
p("C120","The two CosetLDEBatch overloads agree",
 "CosetLDEBatch called with a constant matrix returns what it returns for a matrix it may overwrite, for both values of reverse_at_last.",
 "every matrix, shift, number of added bits and flag","the flag is only exercised on the other overload",
 [PU+"radix2_evaluation_domain.h CosetLDEBatch"])
p("C121","FFTBatch evaluates on the domain's own points",
 "FFTBatch on a domain gives, for every column, what FFT on the same domain gives for the polynomial with these coefficients, also when the domain is a coset obtained with GetCoset.",
 "every domain, offset and matrix","tests use the domain without offset",
 [PU+"radix2_evaluation_domain.h FFTBatch"])
p("C122","Batch transforms of a one-row matrix",
 "FFTBatch, IFFTBatch and CosetLDEBatch accept a matrix with a single row, on the domain of size one that Create(1) returns.",
 "every one-row matrix","a boundary size no test uses",
 [PU+"radix2_evaluation_domain.h FFTBatch",PU+"radix2_evaluation_domain.h CosetLDEBatch"])
p("C123","Completeness of the FRI polynomial commitment",
 "Commit on the value matrices of polynomials (one matrix per coset, at least two rows), CreateOpeningProof at points off the extended coset and VerifyOpeningProof fit together: committing succeeds, the opened values are the values of the polynomials at the points, the verifier accepts, and both leave their challengers in the same state, whatever the two (complete) matrix commitment schemes, the challenger, the thread count and the schedule.",
 "every field with a two-adic root, batches of matrices of any heights and widths, points, blowup, number of queries, challenger and thread count","all parameters, shapes and schedules",
 [CR+"commitments/fri/two_adic_fri.h Commit",CR+"commitments/fri/two_adic_fri.h CreateOpeningProof",CR+"commitments/fri/two_adic_fri.h VerifyOpeningProof",CR+"commitments/fri/two_adic_fri.h ComputeInverseDenominators"])
p("C124","Opened values are bound by an accepted proof",
 "Once commitments, points and a proof are fixed, VerifyOpeningProof does not accept two different sets of opened values for the same challenger state.",
 "every commitment, proof, challenger and set of opened values","a soundness statement about adversarial values",
 [CR+"commitments/fri/two_adic_fri.h VerifyOpeningProof"])
p("C125","An accepted opening proof runs FRI on the quotients by the claimed values",
 "If each commitment can be opened to one list of matrices only and VerifyOpeningProof accepts every query position, the folded vectors are the honest FRI foldings of the combinations, by powers of the challenge alpha, of (p(x) - y) / (x - z) over the committed matrices, points and claimed values, one vector for each height, and the last one is the constant in the proof.",
 "every field, commitment, list of rounds, matrices of mixed heights, points, claimed values and challenges","quantifies over adversarial proofs and all positions",
 [CR+"commitments/fri/two_adic_fri.h VerifyOpeningProof",CR+"commitments/fri/verify.h"])
p("C126","FRI soundness for one input",
 "If a layer commitment can be opened to one matrix only and every position is accepted for a single input, then the input is a codeword of degree below size / blowup, or some layer that the prover committed to before its challenge was drawn folds to a codeword under that one challenge and under no other element of the field.",
 "every field, input vector, commitment scheme, proof and challenges","quantifies over adversarial provers",
 [CR+"commitments/fri/verify.h",CR+"commitments/fri/two_adic_fri.h FoldRow",CR+"commitments/fri/prove.h"])
p("C127","FRI soundness for inputs of different sizes",
 "If FRI accepts for inputs of different sizes, every input is close to a codeword of its rate, except with small probability over the challenges.",
 "every list of inputs, commitment scheme, challenger and proof","quantifies over adversarial inputs",
 [CR+"commitments/fri/prove.h CommitPhase",CR+"commitments/fri/verify.h VerifyQuery"])
RC=ZK+"r1cs/constraint_system/"
p("C128","Linear combinations compute on values","Adding, subtracting, negating and scaling linear combinations, adding or subtracting a single term, and Deduplicate give a linear combination whose value under every assignment is the sum, difference, negation, multiple or the same value; no operation reads outside the terms, and operands with strictly increasing variables give strictly increasing variables.",
  "every field, every assignment, every pair of linear combinations (terms in any order, repeated variables), every sort Deduplicate may use, and both the scan and the binary search for a term",
  "the unit tests use short combinations in order; the merge, the binary search and the unstable sort have to be right for every pair of lists",
  [RC+"linear_combination.h: Deduplicate, operator+=, operator-=, operator+, operator-, operator*, GetVarLocation, BinarySearch, DoAddition",RC+"term.h: Term",RC+"variable.h: Variable, operator<"])
p("C129","The matrices ask what the circuit asks","For a circuit that uses only variables it was given, synthesis, Finalize and ToMatrices succeed in setup mode and in prove mode with matrices. With either optimization goal, an assignment satisfying the matrices satisfies every constraint of the circuit, and an assignment the circuit accepts extends in exactly one way to the witnesses Finalize added; with the goal kConstraints none is added.",
  "every field, every circuit (any number of variables, nested linear combinations and constraints), every assignment, both goals, both modes, every sort used by Deduplicate",
  "inlining and outlining rewrite every constraint, depend on how often each combination is used, and erase combinations as they go; a few test circuits do not cover the cases",
  [RC+"constraint_system.h: CreateInstanceVariable, CreateWitnessVariable, CreateLinearCombination, EnforceConstraint, ComputeLCNumTimesUsed, TransformLCMap, InlineAllLCs, OutlineLCs, Finalize, MakeRow, MakeMatrix, ToMatrices"])
p("C130","IsSatisfied and the assignments in prove mode","In prove mode the instance assignment is one followed by the values returned by the callbacks in order, and the witness assignment starts with those of the witnesses and is as long as the matrices are wide. IsSatisfied holds exactly when the circuit accepts those values, before and after Finalize, and exactly when the matrices hold for the assignments.",
  "every field, every circuit using only variables it was given, all callback values, both goals",
  "the new witnesses and the removed combinations must not change the answer for any circuit",
  [RC+"constraint_system.h: IsSatisfied, EvalLinearCombination, GetAssignedValue, Finalize, instance_assignments, witness_assignments"])
p("C131","The zero variable can be used in a constraint","A constraint may use the variable returned by CreateZero with any coefficient: the matrices are those of the constraint without that term.",
  "every circuit","one circuit refutes it; no test uses the variable",
  [RC+"constraint_system.h: CreateZero, MakeRow, ToMatrices",RC+"variable.h: Zero, GetIndex"])
p("C132","Finalize can be called again","Calling Finalize on a finalized constraint system succeeds.",
  "every circuit","depends on which combinations the first call removed",
  [RC+"constraint_system.h: Finalize, ComputeLCNumTimesUsed"])
p("C133","The cache of assigned values is transparent","However a circuit's calls and evaluations of linear combinations alternate, evaluating a linear combination returns its value under the current assignment.",
  "every field, every circuit using only variables it was given, every interleaving of calls and evaluations",
  "a stale or misplaced entry shows only for some histories of evaluations",
  [RC+"constraint_system.h: GetAssignedValue, lc_assignment_cache_, EvalLinearCombination"])
p("C134","The instance map evaluates the assignment's polynomials","On a domain with room for the constraints and the instance variables, InstanceMap at x returns the vanishing polynomial at x and three vectors, one entry per variable, which weighted with any assignment add up to A(x), B(x) and C(x): the polynomials interpolating the constraint rows of the assignment (and, for A, its instance variables).",
  "every field with roots of unity, every domain size, all matrices whose columns are variables, every x (inside or outside the domain), every assignment, every number of threads",
  "the unit test compares with stored vectors for one circuit; the weights are Lagrange coefficients that must be right at every x",
  [RC+"quadratic_arithmetic_program.h: InstanceMap",RC+"qap_instance_map_result.h: QAPInstanceMapResult"])
p("C135","The witness map returns the quotient","WitnessMap returns for every assignment, and for one that satisfies the constraints it returns fewer coefficients than the domain has points, those of h with A B - C = h (X^n - 1) as polynomials.",
  "every field with roots of unity, every domain size, all matrices, every assignment, every schedule of the transforms",
  "divisibility of A B - C has to hold for every satisfying assignment; tests use one",
  [RC+"quadratic_arithmetic_program.h: WitnessMapFromMatrices, EvaluateConstraint",RC+"qap_witness_map_result.h: QAPWitnessMapResult"])
p("C136","The identity at enough points means the constraints hold","If a polynomial h of degree below n - 1 satisfies A B - C = h (X^n - 1) at 2 n - 1 different points, the assignment satisfies every constraint.",
  "every field, all matrices, every assignment, every h, every set of points",
  "a statement about all polynomials h a dishonest prover may use",
  [RC+"quadratic_arithmetic_program.h: InstanceMap, WitnessMapFromMatrices"])
p("C137","The h query","ComputeHQuery returns n - 1 elements, x^i t(x) / delta, so that the coefficients of h as weights add up to h(x) t(x) / delta.",
  "every domain size, every x, t and delta inverse, every number of threads",
  "each chunk restarts the power of x from its own index; the chunking depends on the machine",
  [RC+"quadratic_arithmetic_program.h: ComputeHQuery"])
p("C138","Setup and prover agree on the matrices","Two runs of a circuit that make the same calls give the same matrices, whatever the mode of the constraint system and the values assigned.",
  "every circuit, all values, all modes that construct matrices, both goals",
  "key generation runs in setup mode and proving in prove mode; a difference for some circuit would make every proof fail",
  [RC+"constraint_system.h: Finalize, ToMatrices, set_mode",ZK+"r1cs/groth16/key.h: PreLoad",ZK+"r1cs/groth16/prove.h: CreateProofWithReduction"])
p("C139","The size check on the domain is sufficient","On a domain that passes the check in InstanceMap and WitnessMap both stay within their vectors.",
  "every domain and all matrices","one domain refutes it; the library's own callers create a larger domain",
  [RC+"quadratic_arithmetic_program.h: InstanceMap, WitnessMapFromMatrices"])
GR=ZK+"r1cs/groth16/"
p("C140","Groth16 is complete","For a circuit that accepts its own values the proving key loads, the verifying key inside it is the one VerifyingKey::Load gives, the prover returns a proof for every r and s, and the verifier accepts it for the public inputs of the circuit.",
  "every field, pairing and circuit that fits the domain, all toxic waste with gamma and delta not zero, every r and s, every number of threads and schedule",
  "the tests prove one small circuit with one choice of secrets",
  [GR+"prove.h: CreateProofWithAssignment, CreateProofWithReduction",GR+"proving_key.h: ProvingKey::Load",GR+"verify.h: VerifyProof",GR+"verifying_key.h: VerifyingKey::Load"])
p("C141","The Groth16 verifier checks the pairing equation","VerifyProof returns for every key with a non-empty list, proof and list of public inputs; it accepts exactly if the number of public inputs fits the key and e(A,B) = e(alpha,beta) e(sum, gamma) e(C, delta).",
  "all verifying keys, proofs and public inputs","the code checks a product of pairings with negated points against a prepared constant; only for all points is that the equation of the paper",
  [GR+"verify.h: VerifyProof, PrepareInputs, VerifyProofWithPreparedInputs",GR+"prepared_verifying_key.h",GR+"verifying_key.h: ToPreparedVerifyingKey"])
p("C142","A wrong witness is found out","If the values of a circuit do not satisfy it, proofs made by the prover code from them are accepted for at most 2n - 2 secret points x, n the size of the domain, whatever r and s.",
  "every circuit and values, all secrets","a count over all secret points of the field",
  [GR+"prove.h: CreateProofWithReduction",GR+"verify.h: VerifyProof"])
p("C143","Re-randomising keeps the verdict","ReRandomizeProof with r1 not zero returns a proof that is accepted exactly when the original is.",
  "all keys, proofs (valid or not), public inputs, r1 and r2","the equation must hold for all r1 and r2",
  [GR+"prove.h: ReRandomizeProof"])
p("C144","Re-randomising never aborts","The factors ReRandomizeProof draws always let it finish.",
  "every outcome of the random draws","needs a draw with probability one over the size of the field",
  [GR+"prove.h: ReRandomizeProof"])
p("C145","Keys are refused for gamma = 0","No key is created from toxic waste with gamma = 0, with which anyone can make proofs.",
  "all circuits and toxic waste","needs a draw with probability one over the size of the field",
  [GR+"proving_key.h: ProvingKey::Load",GR+"verifying_key.h: VerifyingKey::Load, DoLoad"])
p("C146","Groth16 is sound against algebraic provers","A prover that forms A, B and C as any fixed combinations of the group elements of the key, and is accepted on a grid of secrets with 2, 3, 3, 4 and 2n - 1 values of alpha, beta, gamma, delta and x, has put a satisfying witness as weights on the witness query in C.",
  "all circuits, all weights on all elements of the proving and verifying key, all public inputs",
  "a statement about every strategy of a dishonest prover and all secrets",
  [GR+"proving_key.h: ProvingKey::Load",GR+"verifying_key.h: VerifyingKey::Load",GR+"verify.h: VerifyProof"])
p("C147","Satisfying inputs have accepted proofs for all secrets","For all public and private inputs a circuit accepts there are weights on the elements of the key that are accepted for every choice of secrets with gamma and delta not zero.",
  "all circuits and inputs it accepts, all secrets","the converse of C146, for all secrets at once",
  [GR+"proving_key.h: ProvingKey::Load",GR+"verify.h: VerifyProof"])
KZ=CR+"commitments/kzg/"
p("C148","KZG commits to the polynomial","Setup for 2^k coefficients succeeds; Commit of at most 2^k coefficients is p(tau) times the generator, CommitLagrange of p's values on the domain of that size is the same point, longer vectors return false. Setup for a size that is not a power of two returns false, for a size beyond the field's domains it aborts.",
  "every field, group, secret, size, vector and number of threads","the tests use one secret and one size; equality of the two commitments must hold for every polynomial",
  [KZ+"kzg.h: UnsafeSetup, Commit, CommitLagrange",KZ+"gwc.h: DoUnsafeSetupWithTau",KZ+"shplonk.h: DoUnsafeSetupWithTau"])
p("C149","KZG commitments are binding","Two vectors of at most n coefficients that have equal commitments for n different secrets have the same coefficients.",
  "all pairs of vectors, all sets of n secrets","a statement about all pairs of polynomials and a count of secrets",
  [KZ+"kzg.h: Commit"])
p("C150","Downsize keeps Commit","Downsize to a smaller n succeeds and Commit of at most n coefficients gives the same point as before; to the same or a larger size it returns false and changes nothing.",
  "all setups, sizes and vectors","every size and vector",
  [KZ+"kzg.h: Downsize, Commit"])
p("C151","Downsize keeps CommitLagrange","After Downsize to a smaller power of two, CommitLagrange of the values of p on the domain of that size commits to p.",
  "all setups, sizes and vectors","the first points of the Lagrange basis of the large domain look like a basis",
  [KZ+"kzg.h: Downsize, CommitLagrange"])
p("C152","A scheme read from a buffer verifies like the one written","GWC or SHPlonk written with Copyable and read back accepts the proofs the original accepts and no others.",
  "all setups, claims and proofs","the test of serialisation compares fields, not verdicts",
  [KZ+"gwc.h: GWC(KZG&&, G2Point&&), Copyable::ReadFrom",KZ+"shplonk.h: SHPlonk(KZG&&, G2Point&&), Copyable::ReadFrom"])
p("C153","GWC is complete","For true claims about polynomials that fit the setup, CreateOpeningProof returns a proof and leaves the batch closed, and VerifyOpeningProof accepts it for every challenge, whatever follows it in the transcript.",
  "all polynomials, claims (any number of points per polynomial and polynomials per point, repetitions), secrets and challenges","the tests have one set of claims",
  [KZ+"gwc.h: DoCreateOpeningProof, DoVerifyOpeningProof",CR+"commitments/polynomial_openings.h: GroupBySinglePoint, CreateCombinedLowDegreeExtensions"])
p("C154","GWC is sound against algebraic provers","If for every v of a set as large as the number of claims there are polynomials of the setup's size whose commitments are accepted for every u of such a set and for more secrets than the setup's size, all claims are true.",
  "all polynomials, claims, provers that use combinations of the public points","a statement about every strategy of a dishonest prover",
  [KZ+"gwc.h: DoVerifyOpeningProof"])
p("C155","SHPlonk is complete","For true claims about polynomials that fit the setup, the prover returns a proof the verifier accepts for all challenges y, v and u, except u at which some polynomial is opened but not the first; with such u the verifier aborts.",
  "all polynomials, non-empty lists of claims, secrets and challenges","the tests have one set of claims, the exception needs a rare challenge",
  [KZ+"shplonk.h: DoCreateOpeningProof, DoVerifyOpeningProof",CR+"commitments/polynomial_openings.h: GroupByPolyOracleAndPoints, CreateCombinedLowDegreeExtensions"])
p("C156","SHPlonk is sound against algebraic provers","If a prover passes for all y, v, u and tau of large enough sets, choosing H after y and v and Q after u as combinations of the public points, then the first claim about every polynomial and point is true.",
  "all polynomials, claims, provers that use combinations of the public points","a statement about every strategy of a dishonest prover",
  [KZ+"shplonk.h: DoVerifyOpeningProof"])
p("C157","SHPlonk checks every claim","If VerifyOpeningProof accepts for a large set of challenges, every claim in its list is true.",
  "all lists of claims","needs two claims about one polynomial and point",
  [KZ+"shplonk.h: DoVerifyOpeningProof",CR+"commitments/polynomial_openings.h: GetOpeningFromPolyOpenings"])
p("C158","Openings are grouped without loss","GroupBySinglePoint makes one group per point with its claims in order. GroupByPolyOracleAndPoints puts every polynomial in exactly one group; a group has exactly the points of each of its polynomials, in increasing order, with the values of the first claims; different groups have different sets of points.",
  "all lists of claims","every pattern of shared points",
  [CR+"commitments/polynomial_openings.h: GroupBySinglePoint, GroupByPolyOracleAndPoints"])
p("C159","A GWC prover survives a failure","After CreateOpeningProof returned false the prover can be used again.",
  "all histories of calls","needs a failing call followed by another",
  [KZ+"gwc.h: DoCreateOpeningProof",CR+"commitments/vector_commitment_scheme.h: SetBatchMode"])
MV=M+"polynomials/multivariate/"
SC=CR+"sumcheck/multilinear/"
p("C160","Evaluate is the multilinear extension","Evaluate of 2^n values has these values at the corners of the cube, is affine in every variable, and agrees with fixing some variables first (FixVariables). Points of another size abort.",
  "all fields, numbers of variables below 64, values and points","the space of values and points is infinite; the index arithmetic depends on the number of variables",
  [MV+"multilinear_dense_evaluations.h: Evaluate, FixVariables, RunFixVariables"])
p("C161","Operators on multilinear evaluations","Addition, subtraction and negation are those of the functions at every point, multiplication and division those at the corners; division by a zero value has no result; vectors of different sizes are refused.",
  "all pairs of evaluations","every pair of vectors, including the empty one",
  [MV+"multilinear_extension_ops.h: Add, Sub, Negate, Mul, Div"])
p("C162","Points with too few components","A point with fewer components than variables is completed with zeros, as the comment says.",
  "all evaluations and shorter points","a contract for every shorter point",
  [MV+"multilinear_dense_evaluations.h: Evaluate"])
p("C163","Equality of multilinear evaluations","For evaluations of the same number of variables operator== is equality of the functions.",
  "all pairs of evaluations","quantifies over all points",
  [MV+"multilinear_dense_evaluations.h: operator=="])
p("C164","operator== is an equivalence","operator== of multilinear evaluations is transitive.",
  "all triples of evaluations","needs the right triple",
  [MV+"multilinear_dense_evaluations.h: operator==, IsZero"])
p("C165","Linear combinations of products","After any sequence of AddTerm, Combine is the sum over the cube of the sum of coefficient times product, Evaluate its value at a point, for every number of threads; each set of evaluations is stored once; terms without factors count as nothing; factors for another number of variables are refused.",
  "all sequences of AddTerm, all points, all numbers of threads","any sharing of evaluations between terms, any split into chunks",
  [MV+"linear_combination.h: AddTerm, Combine, Evaluate",MV+"linear_combination_term.h: Combine, Evaluate"])
p("C166","InterpolateUniPoly interpolates","The result is the value at the point of the polynomial with at most as many coefficients as values that takes the values at 0, 1, 2, ..., for every number of threads and also if the point is one of these.",
  "all fields, lists of values, points, numbers of threads","needs every degree and point",
  [SC+"sumcheck_verifier.h: InterpolateUniPoly"])
p("C167","Sumcheck is complete","RunInteractiveProtocol returns true for every combination with a factor and every run of random values.",
  "all combinations, numbers of variables below 62, all random values, all numbers of threads","must hold for every outcome of the random draws",
  [SC+"sumcheck_prover.h: Round",SC+"sumcheck_verifier.h: Round, CheckAndGenerateSubclaim",SC+"multilinear_sumcheck.h: RunInteractiveProtocol"])
p("C168","Sumcheck is sound","If the claimed sum is wrong, then for any prover that chooses each message from the challenges before it, at most n d |S|^(n-1) of the |S|^n runs of challenges from S make CheckAndGenerateSubclaim return true with a subclaim that holds, where d is the largest number of factors.",
  "all combinations, wrong sums, prover strategies, sets of challenges","a statement about every strategy of a dishonest prover",
  [SC+"sumcheck_verifier.h: Round, CheckAndGenerateSubclaim"])
p("C169","Sumcheck of a combination without terms","The protocol also runs for a combination without terms, whose sum is 0.",
  "all combinations","boundary of an infinite family",
  [SC+"sumcheck_verifier.h: CheckAndGenerateSubclaim"])
p("C170","CheckAndGenerateSubclaim can be repeated","A second call of CheckAndGenerateSubclaim gives the same answer as the first.",
  "all verifiers and histories of calls","needs a second call after a success",
  [SC+"sumcheck_verifier.h: CheckAndGenerateSubclaim"])
p("C171","Equality of proving keys","Two proving keys that compare as equal contain the same evaluations.",
  "all pairs of proving keys","quantifies over pairs of keys",
  [SC+"sumcheck_proving_key.h: operator=="])
p("C172","AddTerm checks its evaluations","Evaluations that AddTerm accepts can be evaluated, and missing values count as zero everywhere, as operator[] has it.",
  "all evaluations with at most 2^n values","every number of values",
  [MV+"linear_combination.h: AddTerm",MV+"linear_combination_term.h: Combine",MV+"multilinear_dense_evaluations.h: operator[], Degree"])
p("C173","The sumcheck verifier survives any message","CheckAndGenerateSubclaim returns false for a message of the wrong size.",
  "all messages","quantifies over everything a prover may send",
  [SC+"sumcheck_verifier.h: CheckAndGenerateSubclaim"])
PO=CR+"hashes/sponge/poseidon/"
P2=CR+"hashes/sponge/poseidon2/"
p("C174","The optimised Poseidon permutation is Poseidon","Permute with the configuration made by Create (constants moved through the inverse matrix, one constant per partial round, sparse matrices) maps every state to the state the permutation of the paper maps it to.",
  "all fields, widths from 2 on, numbers of rounds with at least two full ones, exponents, constants, invertible matrices, states","the equality of two different sequences of matrix products for every number of rounds and every state",
  [PO+"poseidon.h: Permute, ApplyARK, ApplySBox, ApplyMix",PO+"poseidon_config.h: Create, OptimizeARK, ComputeSparseMatrices",PO+"sparse_mds_matrix.h: FromMDSMatrix, Apply"])
p("C175","The generated matrix is MDS","The matrix 1 / (x_i + y_j) built from two vectors with pairwise different entries is MDS: every square submatrix is invertible. It is built unless a sum is zero.",
  "all fields, sizes and pairs of vectors","all submatrices of all sizes",
  [PO+"poseidon_config.h: FindPoseidonARKAndMDS"])
p("C176","Permute does not collide","If the exponent is coprime to p - 1, two different states have different images under Permute.",
  "all prime fields, widths, rounds, constants, pairs of states","a statement about all pairs of states",
  [PO+"poseidon.h: Permute"])
p("C177","The external matrix of Poseidon2","Apply multiplies by the matrix of the paper (circ(2,1), circ(2,1,1), M4 or circ(2 M4, M4, ...)) with the M4 of the vendor, Construct returns this matrix, other widths are refused, and the matrix is invertible unless the characteristic is one of a few small primes.",
  "all fields, vendors, widths and states","all widths and states",
  [P2+"poseidon2_external_matrix.h: Apply, Construct",P2+"poseidon2_horizen_external_matrix.h",P2+"poseidon2_plonky3_external_matrix.h"])
p("C178","The internal matrix of Poseidon2","Apply multiplies by the matrix of ones with the given diagonal, which is invertible under a condition on the diagonal.",
  "all fields, widths, diagonals and states","all states",
  [P2+"poseidon2_horizen_internal_matrix.h: Apply"])
p("C179","The internal matrix for small fields","The scalar Apply on stored 32-bit values with shifts and 64-bit sums computes the same as the packed Apply with the diagonal -2, 2^s_1, ...: the product with the internal matrix, times 2^-32 for fields in Montgomery form. No sum overflows and the results are canonical.",
  "all odd moduli below 2^31, states, shifts up to 31 (30 for Mersenne31)","overflow depends on all values together",
  [P2+"poseidon2_plonky3_internal_matrix.h: Apply, FromU62",P2+"poseidon2_config.h: Create"])
p("C180","Permute of Poseidon2","Permute is the permutation of the Poseidon2 paper, and is injective if the exponent is coprime to p - 1 and the matrices are invertible.",
  "all fields, widths, rounds, constants, diagonals, states","all states",
  [P2+"poseidon2.h: Permute, ApplyMixFull, ApplyMixPartial"])
p("C181","Scalar Poseidon2 over Mersenne31 passes its own checks","In a build with DCHECKs the internal matrix can be applied to every state.",
  "all states over Mersenne31","the failing states are rare",
  [P2+"poseidon2_plonky3_internal_matrix.h: FromU62","tachyon/math/finite_fields/small_prime_field.h: PrimeField"])
p("C182","A Poseidon2 configuration survives serialization","A configuration read back from the bytes written for it permutes as the original.",
  "all configurations","needs the configuration of a scalar small field",
  [P2+"poseidon2_config.h: Copyable",PO+"poseidon_config_base.h: operator=="])
p("C183","Packed addition, subtraction and negation","Each lane of the sum, the difference and the negation of packed elements is the sum, the difference and the negation of the lanes, on AVX2, AVX-512 and NEON, and is canonical.",
  "all odd moduli below 2^31, numbers of lanes and lane values","2^62 pairs per lane; overflow and the zero lane",
  [FF+"packed_prime_field32_avx2.h: AddMod32, SubMod32, NegateMod32",FF+"packed_prime_field32_avx512.h: AddMod32, SubMod32, NegateMod32",FF+"packed_prime_field32_neon.h: AddMod32, SubMod32, NegateMod32"])
p("C184","Packed Montgomery multiplication","Each lane of the product of packed BabyBear or KoalaBear elements is the product of the lanes, on AVX2, AVX-512 and NEON.",
  "all odd moduli below 2^31 and lane values","2^62 pairs per lane",
  [FF+"packed_prime_field32_avx2.h: MontMulMod32, PartialMontyRedSignedToSigned",FF+"packed_prime_field32_avx512.h: MontMulMod32",FF+"packed_prime_field32_neon.h: MontMulMod32",FF+"baby_bear/internal/",FF+"koala_bear/internal/"])
p("C185","Packed third, fifth and seventh powers","Exp3, Exp5 and Exp7 of a packed element on AVX2 are the powers of its lanes, although the intermediate values are signed and not reduced.",
  "all odd moduli below 2^31 and lane values","signed intermediate values at every boundary",
  [FF+"packed_prime_field32_avx2.h: Exp3, Exp5, Exp7, ShiftedSquare, ApplyFuncToEvenOdd"])
p("C186","Packed multiplication of Mersenne31","Each lane of the product of packed Mersenne31 elements is the canonical product of the lanes, on AVX2, AVX-512 and NEON.",
  "all lane values","2^62 pairs per lane",
  [FF+"mersenne31/internal/packed_mersenne31_avx2.cc: Mul",FF+"mersenne31/internal/packed_mersenne31_avx512.cc: Mul",FF+"mersenne31/internal/packed_mersenne31_neon.cc: Mul"])
p("C187","Packed inverse","Inverse and InverseInPlace of a packed element always return; every lane that is not zero is inverted, the others are zero.",
  "all fields and lane values","all patterns of zero lanes",
  [FF+"packed_prime_field_base.h: Inverse, InverseInPlace"])
p("C188","A packed element without inverse is reported","Inverse of a packed element returns nothing if some lane is zero, like Inverse of a field element.",
  "all lane values","a counterexample is a value with a zero lane",
  [FF+"packed_prime_field_base.h: Inverse, InverseInPlace"])
p("C189","Packed elements from integers","The packed element made from a 32-bit integer has the residue of the integer in every lane.",
  "all 32-bit integers","all integers",
  [FF+"baby_bear/internal/packed_baby_bear_avx2.cc: PackedBabyBearAVX2",FF+"mersenne31/internal/packed_mersenne31_avx2.cc: PackedMersenne31AVX2"])
p("C190","Binary search by key","On a range ascending by key, BinarySearchByKey ends, never leaves the range, and returns an entry with the key exactly when there is one, end otherwise.",
  "all ranges, keys and values","all lengths and positions; duplicates",
  ["tachyon/base/containers/container_util.h: BinarySearchByKey"])
p("C191","Multiplicities of a log-derivative lookup","For every order in which the threads look the inputs up, the multiplicities are the same; for every table value, the multiplicities of the rows holding it add up to the number of inputs equal to it; rows that are not usable get zero; the shared counters are left at zero.",
  "all tables, inputs, sorts, schedules","all schedules of the atomic increments; duplicates in the table",
  [ZK+"lookup/log_derivative_halo2/prover_impl.h: ComputeMPoly"])
p("C192","Log-derivative lookup completeness","If every usable input is in the usable table and the challenge is not the negative of a table value, the multiplicities and grand sum the prover makes satisfy every constraint on every row, whatever the number of threads and the build.",
  "all fields, tables, numbers of inputs, threads, challenges and blinding values","all chunkings of the prefix sums",
  [ZK+"lookup/log_derivative_halo2/prover_impl.h: ComputeMPoly, ComputeLogDerivatives, CreateGrandSumPoly",ZK+"lookup/log_derivative_halo2/evaluator.h: Evaluate"])
p("C193","Log-derivative lookup soundness","If, for multiplicities fixed before the challenge, enough challenges (2 u (k + 1) for u usable rows and k inputs) admit a grand sum that satisfies every constraint, every usable input is in the usable table, provided the number of inputs is below the characteristic.",
  "all fields, columns, sets of challenges and grand sums","a statement about all cheating provers",
  [ZK+"lookup/log_derivative_halo2/evaluator.h: Evaluate",ZK+"lookup/log_derivative_halo2/verifier.h: Evaluate, CreateGrandSumEvaluation"])
p("C194","Log-derivative verifier agrees with the prover's constraints","Where no input's or table's value plus the challenge is zero, the verifier computes exactly the values of the constraint polynomials.",
  "all evaluations and challenges","all evaluations",
  [ZK+"lookup/log_derivative_halo2/verifier.h: CreateGrandSumEvaluation",ZK+"lookup/log_derivative_halo2/evaluator.h: Evaluate"])
p("C195","The log-derivative verifier is defined on every proof","For all evaluations a proof may contain, the verifier computes the values of the constraint polynomials.",
  "all evaluations, chosen by the prover after the challenge","a counterexample needs an evaluation that cancels the challenge",
  [ZK+"lookup/log_derivative_halo2/verifier.h: CreateGrandSumEvaluation"])
p("C196","Shuffle completeness","If the usable rows of the input are a permutation of those of the shuffle column and the challenge hits no zero, the prover's grand product makes every expression of the verifier vanish on every row.",
  "all fields, columns, challenges and blinding values","all permutations",
  [ZK+"shuffle/prover_impl.h: CreateGrandProductPoly",ZK+"shuffle/verifier.h: Evaluate"])
p("C197","Shuffle soundness","If more than 3 u challenges admit a grand product that makes every expression vanish on every row, the usable rows of the input are a permutation of those of the shuffle column.",
  "all fields, columns, sets of challenges and grand products","a statement about all cheating provers",
  [ZK+"shuffle/verifier.h: Evaluate, CreateGrandProductEvaluation"])
p("C198","Any number of shuffle arguments","For every number of shuffle arguments the prover's evaluation of the constraints reads each argument's own grand product.",
  "all numbers of arguments","the tests use one argument",
  [ZK+"shuffle/evaluator.h: Construct, Evaluate, UpdateCosets"])
p("C199","Compression by a challenge","The prover and the verifier compress a row of values to the same element. If the compressed rows of A are among (a permutation of) those of S for enough challenges, the rows of A are among (a permutation of) those of S. Terms folded by powers of a challenge are all zero once the folded value is zero for as many challenges as there are terms.",
  "all rows, widths and sets of challenges","a statement about all cheating provers",
  [ZK+"plonk/expressions/compress_expression.h: CompressExpressions",ZK+"lookup/log_derivative_halo2/verifier.h: CompressExpressions",ZK+"shuffle/verifier.h: CompressExpressions",ZK+"lookup/log_derivative_halo2/evaluator.h: Evaluate"])
p("C200","Completeness of the vanishing argument","If every gate, permutation and lookup constraint holds on every row, the prover's quotient exists, splits in degree - 1 pieces of n coefficients, and for every challenge outside the domain the value the verifier computes from the column evaluations equals the value of the combined pieces.",
  "all fields, domain sizes, circuits with gates, permutation and lookups, numbers of circuits, challenges, thread counts and schedules","all circuits, witnesses and challenges",
  [ZK+"plonk/vanishing/vanishing_prover_impl.h: CreateFinalHPoly, CommitFinalHPoly, BatchEvaluate",ZK+"plonk/vanishing/circuit_polynomial_builder.h: BuildExtendedCircuitColumnScroll",ZK+"plonk/halo2/verifier.h: EvaluateH"])
p("C201","Soundness of the vanishing argument","For fixed column, permutation and lookup polynomials: if for as many values of y as there are constraints some pieces of a quotient match the verifier's value at n times the degree challenges x, every constraint holds on every row.",
  "all fields, circuits, polynomials, pieces and sets of challenges","a statement about all cheating provers",
  [ZK+"plonk/halo2/verifier.h: EvaluateH, ComputeAuxValues",ZK+"plonk/vanishing/vanishing_verifier.h: Evaluate"])
p("C202","The cube root of unity that shifts the extended domain","For both vendors the shift is a primitive cube root of unity whenever the multiplicative group has one, and absent otherwise; the shifted extended domain never meets the domain.",
  "all fields, limb counts, extended domain sizes","all fields",
  [ZK+"plonk/vanishing/vanishing_utils.h: GetZeta, GetHalo2Zeta"])
p("C203","To the extended domain and back","CoeffToExtended gives the values on the shifted extended domain, ExtendedToCoeff the polynomial that has given values there, and they are inverse; dividing by the vanishing polynomial divides each value by x^n - 1.",
  "all fields, sizes, polynomials, thread counts and schedules","all sizes and schedules",
  [ZK+"plonk/vanishing/vanishing_utils.h: CoeffToExtended, ExtendedToCoeff, DistributePowersZeta, DivideByVanishingPolyInPlace"])
p("C204","The extended circuit column holds the verifier's combination","At every point of the shifted extended domain, the column the prover computes from the compiled graphs is x^n - 1 times what the verifier computes from evaluations at that point. The extended domain is the smallest with room for the quotient.",
  "all circuits, witnesses, challenges, thread counts and schedules","all circuits",
  [ZK+"plonk/vanishing/circuit_polynomial_builder.h: BuildExtendedCircuitColumnScroll, UpdateLPolyCosets",ZK+"plonk/vanishing/custom_gate_evaluator.h: Evaluate",ZK+"plonk/permutation/permutation_evaluator.h: Evaluate",ZK+"lookup/halo2/evaluator.h: Evaluate",ZK+"plonk/constraint_system/constraint_system.h: ComputeDegree, ComputeExtendedK"])
p("C205","The verifier's evaluations of instance columns","For each query of an instance column at a rotation the verifier gets the value, at the rotated challenge, of the polynomial interpolating the column padded with zeros; it aborts when the longest column and the range of rotations exceed the domain.",
  "all columns, queries, rotations and challenges","all rotations, both signs",
  [ZK+"plonk/halo2/verifier.h: ComputeInstanceEvalsVec"])
p("C206","First, last and active row selectors","The proving key's polynomials and the values the verifier computes at its challenge belong to the same Lagrange polynomials, which on the rows are the indicators of the first row, the row after the usable ones and the blinding rows.",
  "all domains, numbers of blinding factors and challenges","all challenges",
  [ZK+"plonk/keys/proving_key.h: LoadWithVerifyingKey",ZK+"plonk/halo2/verifier.h: ComputeAuxValues"])
p("C207","When the verifier's expected quotient value exists","The verifier computes its expected value for every challenge x with x^n not 1, and aborts exactly for the n other ones, also for satisfied circuits.",
  "all circuits, evaluations and challenges","n challenges out of the whole field",
  [ZK+"plonk/halo2/verifier.h: EvaluateH"])
p("C208","The circuit column of the PSE vendor","At every point of the shifted extended domain, the column built for the vendor PSE is the value there of the combination of the circuit's constraints.",
  "all circuits","the tests only run the vendor Scroll",
  [ZK+"plonk/vanishing/circuit_polynomial_builder.h: BuildExtendedCircuitColumnPSE",ZK+"plonk/vanishing/graph_evaluator.h: Evaluate"])
p("C209","Lagrange coefficients of a range that wraps around","EvaluatePartialLagrangeCoefficients for a range of at most n positions starting anywhere, also below zero, gives the Lagrange polynomials of the positions modulo n at tau, for tau inside or outside the coset.",
  "all domains, offsets, ranges and points","all ranges and points",
  [W+"math/polynomials/univariate/univariate_evaluation_domain.h: EvaluatePartialLagrangeCoefficients"])
p("C210","Tonelli-Shanks square roots","For every prime field with p = 1 mod 4 that is not 2^k + 1 and whose configured generator is a non-square, SquareRoot terminates, returns a square root of every square and reports that there is none exactly for the non-squares. The generated two-adic root of unity is primitive of the full two-power order.",
  "all primes, generators, elements, exponent limb counts","all primes and elements, and termination of an unbounded loop",
  [W+"math/finite_fields/square_root_algorithms/tonelli_shanks.h: ComputeTonelliShanksSquareRoot",W+"math/finite_fields/finite_field.h: SquareRoot",W+"math/finite_fields/generator/prime_field_generator/prime_field_generator.cc: GenerateConfigHdr"])
p("C211","Shanks square roots","For every prime p = 3 mod 4, SquareRoot returns a square root of every square and reports that there is none exactly for the non-squares.",
  "all primes, elements","all primes and elements",
  [W+"math/finite_fields/square_root_algorithms/shanks.h: ComputeShanksSquareRoot"])
p("C212","The Legendre symbol","Legendre() is zero for 0, one for the non-zero squares and minus one for the non-squares, and is multiplicative.",
  "all odd primes, elements","all primes and elements",
  [W+"math/finite_fields/prime_field_base.h: Legendre"])
p("C213","Points from an x coordinate","GetYsFromX fails exactly when no point has this x and otherwise returns the even and the other y of the points that have it; CreateFromX with the parity of a point's y gives that point.",
  "all prime fields, curves y^2 = x^3 + a x + b, x coordinates","all curves and coordinates",
  [W+"math/elliptic_curves/short_weierstrass/sw_curve.h: GetYsFromX, GetPointFromX",W+"math/elliptic_curves/short_weierstrass/affine_point.h: CreateFromX"])
p("C214","pick_odd chooses an odd y","CreateFromX with pick_odd set returns a point whose y is odd.",
  "all curves and x coordinates","all curves",
  [W+"math/elliptic_curves/short_weierstrass/sw_curve.h: GetPointFromX"])
p("C215","Roots of unity with a large subgroup","For fields with a small subgroup base q, GetRootOfUnity(n) gives a primitive n-th root for every n = 2^i q^j within the adicities and fails for every other n; the generated root (before its conversion) has the order this needs.",
  "all fields, adicities, odd bases, sizes below 2^64","all sizes and fields",
  [W+"math/finite_fields/prime_field_base.h: Decompose, GetRootOfUnity",W+"math/finite_fields/generator/prime_field_generator/prime_field_generator.cc: GenerateConfigHdr"])
p("C216","Goldilocks roots of unity on x86-64","In the build without Montgomery form, GetRootOfUnity(n) of Goldilocks gives a primitive n-th root for every n = 2^i 3^j with i at most 32 and j at most 1.",
  "all sizes","the tests only ask for powers of two",
  [W+"math/finite_fields/prime_field_base.h: GetRootOfUnity",W+"math/finite_fields/goldilocks/internal/BUILD.bazel: use_montgomery",W+"math/finite_fields/generator/generator_util.cc: MpzClassToMontString"])
p("C217","Curve points in a proof round trip","ReadFromProof returns the point that WriteToProof wrote, in both formats, whenever the modulus leaves the flag bits free; in the legacy format for points with x = 0 only if it is infinity.",
  "all prime fields and limb counts, curves, points, both formats","all points",
  [ZK+"plonk/halo2/proof_serializer.h: ReadFromProof, WriteToProof"])
p("C218","Legacy encoding of points with x = 0","A finite point with x = 0 written in the legacy format is read back as itself.",
  "all curves with such a point","rare points",
  [ZK+"plonk/halo2/proof_serializer.h: ReadFromProof"])
p("C219","Encodings of points are unique","No two different byte strings are read as the same point.",
  "all byte strings","all byte strings, for every curve",
  [ZK+"plonk/halo2/proof_serializer.h: ReadFromProof",W+"math/finite_fields/prime_field_fallback.h: FromBigInt"])
p("C220","CheckBits tells whether the flags fit","CheckBits holds exactly when the modulus leaves the bits of the last byte free that the encoding uses for its flags.",
  "all moduli and limb counts, both formats","all moduli",
  [ZK+"plonk/halo2/proof_serializer.h: CheckBits"])
p("C221","SquareRoot always returns","SquareRoot returns for every element also when p = 2^k + 1 and before Init() has been called.",
  "all primes and elements","non-termination",
  [W+"math/finite_fields/square_root_algorithms/tonelli_shanks.h: ComputeTonelliShanksSquareRoot",W+"math/finite_fields/prime_field_util.cc: ComputeTrace",W+"math/finite_fields/generator/prime_field_generator/prime_field_config.cc.tpl: Init"])
FP="tachyon/zk/plonk/layout/"
p("C222","Free intervals of a column","The free intervals that a column's allocations report for a range are exactly its unallocated rows: none is missing, none is allocated, every interval is non-empty and there is a gap between any two.",
  "all sets of allocations, start rows, open and closed ends","all sets of allocations",
  [FP+"floor_planner/allocations.h: FreeIntervals"])
p("C223","First fit is the first fit","FirstFitRegion returns the least row from the given start at which the region has room in all its columns, gives up only if there is none within the slack, marks exactly the region's cells as allocated, and never fails its CHECKs.",
  "all allocations, column lists, lengths, starts, slacks below 2^31","recursive search over all columns",
  [FP+"floor_planner/v1/v1_strategy.cc: FirstFitRegion"])
p("C224","Biggest advice area first","SlotInBiggestAdviceFirst puts every region at the earliest row where it meets none of the regions of larger advice area, regions never share a cell, and the starts come back in the order of the regions.",
  "all lists of region shapes with less than 2^31 rows, all correct sorts, all column orders","all region lists",
  [FP+"floor_planner/v1/v1_strategy.h: SlotIn, SlotInBiggestAdviceFirst"])
p("C225","The layout does not depend on hash order","Keys and proofs are laid out alike: the V1 layout of a circuit is the same for every order in which hash sets enumerate a region's columns, also where the column ordering leaves columns unordered.",
  "all circuits, all pairs of column orders","hash order varies between runs and builds",
  [FP+"floor_planner/v1/v1_strategy.h: SlotIn",FP+"region_shape.h: RegionShape",FP+"floor_planner/v1/v1_floor_planner.h: Synthesize"])
p("C226","Rows offered to constants","The V1 planner offers to constants every cell of a constants column above the end of the last region that no region covers, each once and no other.",
  "all circuits, lists of constants columns","all circuits",
  [FP+"floor_planner/v1/v1_floor_planner.h: Synthesize"])
p("C227","The V1 floor planner keeps the circuit","After V1 synthesis the circuit holds every region's values at the region's rows, no two regions overlap, every constant sits in a constants column and is copied to its cell, every equality is passed on with absolute rows, and nothing else is written. It fails only if there are more constants than cells for them.",
  "all circuits with less than 2^31 rows","all circuits",
  [FP+"floor_planner/v1/v1_floor_planner.h: Synthesize",FP+"floor_planner/v1/assignment_pass.h: AssignRegion",FP+"floor_planner/v1/measurement_pass.h: AssignRegion",FP+"floor_planner/plan_region.h: PlanRegion",FP+"region_shape.h: RegionShape"])
p("C228","The simple floor planner keeps the circuit","The same promises for the simple floor planner, for circuits whose regions refer to cells of themselves or of earlier regions.",
  "all circuits with less than 2^32 rows","all circuits",
  [FP+"floor_planner/single_chip_layouter.h: AssignRegion",FP+"floor_planner/plan_region.h: PlanRegion"])
p("C229","Lookup tables are laid out and padded","While keys are made, a table whose columns are new and have the same rows 0..n-1, n below the usable rows, is stored as given and padded with its row 0 to the last usable row; nothing else changes; its columns cannot be assigned again. Any other table is refused.",
  "all tables, hash orders, numbers of usable rows","all tables",
  [FP+"floor_planner/lookup_table_assigner.h: AssignLookupTable",FP+"floor_planner/simple_lookup_table_layouter.h: AssignCell","tachyon/zk/plonk/keys/assembly.h: AssignFixed, FillFromRow"])
p("C230","A table may use every usable row","A table with exactly as many rows as there are usable rows is accepted.",
  "all tables","boundary for every size",
  ["tachyon/zk/plonk/keys/assembly.h: FillFromRow",FP+"floor_planner/lookup_table_assigner.h: AssignLookupTable"])
p("C231","Tables in the prover's pass","Synthesizing a circuit with a lookup table for the prover has no undefined behaviour.",
  "all tables","undefined behaviour that tests do not see",
  [FP+"floor_planner/lookup_table_assigner.h: AssignLookupTable",FP+"floor_planner/simple_lookup_table_layouter.h: AssignCell","tachyon/zk/plonk/halo2/witness_collection.h: WitnessCollection","tachyon/zk/base/value.h: value"])
p("C232","Inequality of values","a != b on zk::Value returns the negation of a == b.",
  "all values","non-termination",
  ["tachyon/zk/base/value.h: operator!="])
p("C233","Column ordering is total","Of two different columns one is less than the other.",
  "all pairs of columns","all pairs",
  ["tachyon/zk/plonk/base/column_key.h: operator<",FP+"region_column.h: operator<"])
p("C234","The layout does not depend on the sort","The V1 layout is the same for every correct sorting routine.",
  "all circuits, sorts","depends on the standard library",
  [FP+"floor_planner/v1/v1_strategy.h: SlotInBiggestAdviceFirst"])
p("C235","A refused table cell changes nothing","If AssignCell returns false the circuit is as before.",
  "all tables","error path",
  [FP+"floor_planner/simple_lookup_table_layouter.h: AssignCell"])
BF="tachyon/math/finite_fields/binary_fields/"
p("C236","Binary fields are fields","At every width the binary field's addition and multiplication obey the field laws: both are closed, associative and commutative, multiplication distributes over addition, every element is its own opposite and every non-zero element has an inverse.",
  "all widths 2^k, all elements","2^384 triples at 128 bits; the tables alone have 2^24 triples",
  [BF+"binary_field.h: Add, Sub, Compose, Decompose",BF+"binary_tower_operations.h: Mul, MulByAlpha, DoBinaryMul"])
p("C237","Squares, generator products and inverses in binary fields","Square returns the product of an element with itself, MulByAlpha its product with the generator, and Inverse returns nothing for zero and otherwise the only element whose product with the argument is one.",
  "all widths 2^k, all elements","all 128 bit elements",
  [BF+"binary_tower_operations.h: Square, MulByAlpha, Inverse, DoBinaryInverse"])
p("C238","The binary fields form a tower","Each binary field contains the field of half its width with the same multiplication, and is generated over it by an X with X^2 = aX + 1, a being the half-width field's generator. Decompose and Compose convert between an element and its coordinates.",
  "all widths 2^k, all elements","all elements",
  [BF+"binary_field.h: Compose, Decompose",BF+"binary_tower_operations.h: Mul"])
p("C239","TwoInv of a binary field","TwoInv returns an element whose product with One + One is one.",
  "all widths","quantifies over the whole field: no element has this property",
  [BF+"binary_field.h: TwoInv, Double"])
MS="tachyon/math/polynomials/multivariate/"
p("C240","Evaluating sparse multivariate polynomials","Evaluate returns the sum over the terms of the coefficient times the product of the powers of the point's coordinates, however the terms and factors are split over threads.",
  "all polynomials, points covering the variables, splittings into chunks","all schedules and polynomials",
  [MS+"multivariate_sparse_coefficients.h: Evaluate, EvaluateSerial"])
p("C241","Evaluate refuses points of the wrong length","A point that does not have a coordinate for every variable is refused.",
  "all numbers of variables and points","out-of-bounds reads that tests do not see",
  [MS+"multivariate_sparse_coefficients.h: Evaluate"])
p("C242","Negation of sparse multivariate polynomials","Negate and NegateInPlace return a polynomial in the same variables with the opposite value at every point.",
  "all polynomials, points","all points",
  [MS+"multivariate_polynomial_ops.h: Negate, NegateInPlace"])
p("C243","Sums of sparse multivariate polynomials","The value of a sum or difference at any point is the sum or difference of the values.",
  "all pairs of polynomials made with CreateChecked, points","all pairs and points",
  [MS+"multivariate_polynomial_ops.h: DoAdd, AddInPlace, SubInPlace",MS+"multivariate_sparse_coefficients.h: Literal::operator<, Compact"])
p("C244","Compact keeps the polynomial","Compact keeps the value at every point and leaves no zero coefficient.",
  "all lists of terms","all lists of terms",
  [MS+"multivariate_sparse_coefficients.h: Compact, Literal::Degree, Literal::operator=="])
p("C245","A polynomial minus itself","p - p is the zero polynomial.",
  "all polynomials","undefined behaviour that tests do not see",
  [MS+"multivariate_polynomial_ops.h: Sub, DoAdd",MS+"multivariate_sparse_coefficients.h: Compact"])
p("C246","Sums can be evaluated","The polynomial returned by Add or Sub can be evaluated.",
  "all summands, points","an uninitialised member; works by luck of the stack's content",
  [MS+"multivariate_polynomial_ops.h: Add, Sub",MS+"multivariate_sparse_coefficients.h: num_vars_, Evaluate"])
p("C247","Degree of sparse multivariate polynomials","Degree returns the largest total degree of a term, and polynomials over kMaxDegree cannot be made.",
  "all polynomials","all polynomials",
  [MS+"multivariate_sparse_coefficients.h: Degree, Literal::Degree, CreateChecked"])
p("C248","Looking up a coefficient","Indexing a polynomial with a literal returns that literal's coefficient.",
  "all polynomials made with CreateChecked, literals","all polynomials",
  [MS+"multivariate_sparse_coefficients.h: operator[], GetCoefficient, Literal::operator<"])
BY="tachyon/math/base/byinverter.h"
p("C249","Inverse of an odd word modulo 2^62","The inverse modulo 2^62 computed when an inverter is made is right for every odd modulus.",
  "all odd words","2^63 words",[BY+": Invert62, BYInverter"])
p("C250","Signed big integers of the inverter","Sums, negations, products by a word, shifts, sign and comparison of the inverter's big integers are those of the numbers they represent in two's complement; saving a loaded BigInt gives it back.",
  "all numbers of chunks, values, multipliers","carries and borrows that occur once in 2^62 chunks",
  [BY+": CInt, Load, Save, Convert, operator+, operator-, operator*, operator==, Shift, Lowest, IsNegative"])
p("C251","Transition matrices of the inverter","Jump ends, without overflow, with a matrix of determinant 2^62 that maps the pair to a multiple of 2^62, whatever the higher chunks are.",
  "all odd f, all g and delta","all pairs of words, all higher chunks",[BY+": Jump"])
p("C252","Modular inversion by the Bernstein-Yang method","For an odd modulus and an adjuster below it, Invert ends on every input. It returns false exactly when the input and the modulus have a common divisor, and otherwise the one number below the modulus whose product with the input is the adjuster modulo the modulus.",
  "all numbers of limbs, odd moduli, adjusters below the modulus, inputs","termination and correctness for every modulus and input",
  [BY+": BYInverter, Invert, FG, DE, Norm"])
p("C253","Inverse of prime field elements","Inverse and InverseInPlace return the Montgomery form of the inverse of every non-zero element, and nothing for zero.",
  "all odd primes, elements","all elements of all prime fields",
  ["tachyon/math/finite_fields/prime_field_fallback.h: Inverse, InverseInPlace, inverter",BY+": Invert"])
RX="tachyon/crypto/random/xor_shift/xor_shift_rng.h"
RC="tachyon/crypto/random/cha_cha20/cha_cha20_rng.h"
p("C254","Stream of the XORShift generator","After SetSeed, whatever the generator did before, the outputs are those of the xorshift128 recurrence started from the seed's four little-endian words. Different seeds never reach the same four consecutive outputs at the same position, and no seed leads to a stream of zeros.",
  "all seeds, earlier states, positions in the stream","2^128 seeds and unbounded streams",[RX+": SetSeed, NextUint32"])
p("C255","Saving and restoring a generator","WriteToBuffer succeeds exactly when the state (16 or 136 bytes) fits, and ReadFromBuffer of what was written gives any generator the saved state, so the same future outputs; the buffer's endianness does not matter and is kept. A failed read leaves the generator as it was.",
  "all states, buffers, cursors and endiannesses","all states and buffers",[RX+": ReadFromBuffer, WriteToBuffer",RC+": ReadFromBuffer, WriteToBuffer"])
p("C256","Stream of the ChaCha20 generator","Word i of the stream of a new generator, seeded with a key, is word i mod 16 of the block of that key with the 64-bit counter i / 16; no input of the block function is used twice in 2^64 blocks.",
  "all keys, positions in the stream, block functions","counter carries occur after 2^32 blocks",[RC+": ChaCha20RNG, SetSeed, Update, Get","tachyon/crypto/random/block_rng.h: NextUint32"])
p("C257","SetSeed makes the stream a function of the seed","After SetSeed returns true the outputs depend on the seed only; a seed of another length is refused and changes nothing.",
  "all seeds, all earlier histories of the generator","all positions at which the seed is changed",[RX+": SetSeed",RC+": SetSeed"])
p("C258","A restored generator is safe to use","After ReadFromBuffer returns true, drawing numbers has defined behaviour for ever.",
  "all buffer contents","all contents of the buffer",[RC+": ReadFromBuffer, Get","tachyon/crypto/random/block_rng.h: NextUint32"])
p("C259","Field elements from random words","FromUint512 maps any eight limbs, or sixty-four bytes, to the residue of the 512-bit number they form, also when the halves are not below the modulus. FromUint128 maps a number below the modulus to itself. Generate consumes sixteen words of the generator and returns the residue of the number they form.",
  "all odd four-limb moduli, all limbs, all generators","2^512 inputs, every modulus, halves above the modulus",
  ["tachyon/zk/plonk/halo2/prime_field_conversion.h: FromUint128, FromUint512","tachyon/zk/plonk/halo2/random_field_generator.h: Generate","tachyon/crypto/random/rng.h: NextUint64"])
p("C260","Blinding replaces exactly the last rows","Blind replaces the last rows (the factors, and one more on request) by successive values of the generator and keeps the others; it returns false and changes nothing when there are fewer rows than that.",
  "all columns, numbers of factors, generators","all sizes",["tachyon/zk/base/blinder.h: Blind","tachyon/zk/base/row_types.h: RowIndex"])
p("C261","Rotated row indices","GetIndex returns the row index plus rotation times scale, modulo the size, for negative rotations too, or stops the process on overflow; it never returns another row. The opposite rotation leads back.",
  "all rotations, indices, scales and sizes","all quadruples of 32-bit integers",["tachyon/zk/base/rotation.h: GetIndex"])
GL="tachyon/crypto/hashes/sponge/poseidon/poseidon_grain_lfsr.h"
p("C262","Key stream of the Grain generator","The generator made from a configuration runs through the sequence of the Poseidon paper: the first 80 bits encode the configuration, the others follow the recurrence, and the output starts at bit 240. Generators of different configurations never agree on 80 consecutive bits at the same position.",
  "all configurations, all positions in the stream","unbounded streams and all configurations",[GL+": PoseidonGrainLFSR, Update, Init"])
p("C263","GetBits terminates and self-shrinks","GetBits returns for every configuration and after any earlier calls: of any 80 consecutive pairs of bits one begins with a one. The answers to a sequence of requests are together the second bits of the pairs that begin with a one, in order; bits of the bitset beyond a request are zero, and a request beyond the bitset throws.",
  "all configurations, sequences of requests, bitset sizes","termination over a period of up to 2^80 - 1",[GL+": GetBits"])
p("C264","Field elements of the Grain generator","GetFieldElementsRejectionSampling returns the next integers (most significant bit first) below the modulus, skipping exactly those that are not; GetFieldElementsModP returns the next integers modulo the modulus. Both stop the process if the configuration is for another number of bits.",
  "all configurations, moduli, numbers of elements","all moduli and streams",[GL+": GetFieldElementsRejectionSampling, GetFieldElementsModP","tachyon/math/base/big_int.h: FromBitsBE"])
p("C265","Draws behind the Poseidon constants","FindPoseidonARKAndMDS takes the round constants, row by row, then skips two vectors for each matrix to skip, then takes the two vectors of the matrix, all from one stream without gaps or overlaps.",
  "all configurations, moduli, numbers of rounds and skips","all sizes",["tachyon/crypto/hashes/sponge/poseidon/poseidon_config.h: FindPoseidonARKAndMDS"])
PE="tachyon/crypto/commitments/pedersen/pedersen.h"
VC="tachyon/crypto/commitments/vector_commitment_scheme.h"
p("C266","Pedersen commitments","Commit returns r h + v_0 g_0 + ... for a vector with as many entries as generators and false for every other; the sum of two commitments commits to the sum of the vectors and random values. Two openings of a commitment give a relation between the generators; if the generators are multiples of h, every commitment can be opened to every vector.",
  "all vectors, random values, generators, groups","all vectors and groups",[PE+": Commit, DoCommit, ComputeCommitment"])
p("C267","Batches of KZG commitments","After SetBatchMode(n), calls of Commit and CommitLagrange with indices, and GetBatchCommitments, entry i is the commitment made without batch mode by the last call for i that returned true; the next batch starts afresh. Outside batch mode and in a batch begun already the process stops; an index beyond the batch is undefined.",
  "all sequences of calls, vectors and indices","all histories of calls",["tachyon/crypto/commitments/kzg/kzg.h: Commit, CommitLagrange, GetBatchCommitments, ResizeBatchCommitments",VC+": SetBatchMode","tachyon/crypto/commitments/univariate_polynomial_commitment_scheme.h: Commit, CommitLagrange"])
p("C268","Batches of Pedersen commitments","In batch mode Commit(v, r, i) stores at i the commitment that Commit(v, r, &c) makes.",
  "all sequences of calls, vectors, random values and indices","all histories of calls; the unit test compares with the unblinded sum",[PE+": DoCommit, GetBatchCommitments",VC+": Commit, SetBatchMode"])
WC="tachyon/zk/plonk/halo2/witness_collection.h"
p("C269","The prover's witness collection","After any sequence of AssignAdvice calls each advice cell holds the value of the last call for it and zero if there was none; rows that are not usable stay zero. Calls for columns of later phases are ignored without running the callback; every other call needs an existing column, a usable row and a known value, and nothing else stops the process. Challenges and instances read meanwhile are those the collection was made with.",
  "all sequences of calls, sizes and phases","all histories of calls",[WC+": WitnessCollection, AssignAdvice, QueryInstance, GetChallenge"])
p("C270","Advice columns committed to","In each phase exactly the advice columns of that phase are committed to, each once and in the order of their indices; the usable rows are the assigned values, evaluated, the rows after them zero and the last row one. The rows after the usable ones are therefore the same in all proofs and do not blind the column.",
  "all sequences of calls, sizes and phases","all circuits",["tachyon/zk/plonk/halo2/synthesizer.h: GenerateAdviceColumns",WC+": TakeAdvices"])
#END
def write():
    here=os.path.dirname(os.path.abspath(__file__))
    with open(os.path.join(here,"..","properties.jsonl"),"w") as f:
        for q in P: f.write(json.dumps(q,ensure_ascii=False)+"\n")
if __name__=="__main__": write()
