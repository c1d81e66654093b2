{
 "C07": {
  "note": "False of the code for the all-ones value (C07_to_naf_refuted: v+1 wraps and [-1] is returned); C07_to_naf_partial proves the full statement for every other value."
 },
 "C13": {
  "note": "The code violates this property: C13_portable_u64_sub_with_borrow_refuted gives a witness and C13_portable_u64_borrow_is_inverted shows the reported borrow is always the complement of the true one. The 32-bit sibling is proved correct."
 },
 "C12": {
  "note": "Termination included: the outer loop needs at most 128 N iterations. PrimeField::Inverse itself uses BYInverter, which is a separate property."
 },
 "C18": {
  "note": "Callbacks are modelled as sequences of steps on the span they receive; interleavings are arbitrary, memory is sequentially consistent. Sizes are bounded so that size_t sums do not wrap (2*size + threads < 2^64). Observation: GetNumElementsPerThread drops its threshold argument (modelled as is)."
 },
 "C19": {
  "note": "False for shrinking with a fill value (C19_resize_value_refuted, C19_resize_value_shrink_fails: size_t underflow in last(size - old_size)); proved for the overload without value and for every non-shrinking call with a value."
 },
 "C14": {
  "note": "Holds in every monoid with a correct squaring, for exponents of any limb count. Also covers ConstPow/ConstScalarMul, ExpPowOfTwo and LinearCombination(InPlace)."
 },
 "C15": {
  "note": "Plain powers and scalar multiples are proved for every thread count. The bit-reversed variants are proved for sizes 2^k with k>0 and any order of the parallel writes; for size 1 the code shifts a 64-bit word by 64 (undefined), see the _refuted theorem."
 },
 "C16": {
  "note": "Proved for fewer than 128 threads; with 128 or more the code evaluates size_t{1} << (threads/2) with a shift of 64 or more, which is undefined (C16_batch_inverse_many_threads_refuted)."
 },
 "C17": {
  "note": "Ring operations, inverse, division, equality and IsZero are proved. The code violates the rest: IsOne/IsMinusOne accept any denominator when the numerator is (minus) one, BatchEvaluate ignores its coefficient and maps zero denominators to zero, and operator< is not a function of the values."
 },
 "C66": {
  "note": "ReverseBitsLen with bit_len 0 shifts by 64 and is undefined in the code; everything else is proved for all inputs. CountLeadingZeroBits/CountTrailingZeroBits are modelled by the defining loops of the compiler builtins."
 },
 "C10": {
  "note": "Proved for every odd modulus with 2 < p < 2^31; Inverse assumes p prime (shown for BabyBear and KoalaBear). The packed SIMD variants are not modelled."
 },
 "C11": {
  "note": "Primality of 2^31-1 is proved in Coq by Pocklington's criterion, so the inverse theorem has no hypothesis beyond canonical input."
 },
 "C67": {
  "note": ""
 },
 "C68": {
  "note": "Refuted: the default Reduce(uint64_t) subtracts the modulus once, so products are wrong unless the BUILD rule supplies reduce64 (witness GF(7): 5*6 = 23); for moduli between 2^31 and 2^32 AddMod wraps. Proved: correct for every p < 2^31 and every reduction that is right on products."
 },
 "C20": {
  "note": "Integers only, on a little-endian host (Native is Little). float/double endian writes convert the value to an integer and are not covered."
 },
 "C21": {
  "note": "Round trip, layout, failure and EstimateSize are proved for every nesting of integers, one-byte-character strings, vectors, fixed arrays, structs and matrices. The code violates the rest: strings of wider characters are truncated (C21_wide_string_refuted), and EstimateSize of arrays above 2^31 bytes wraps an int (C21_estimate_size_refuted). EstimateSize of a matrix assumes elements of fixed size."
 },
 "C22": {
  "note": "Byte and integer accesses are proved exact, including overflow of offset+n. The code violates the rest: ReadPtrAt multiplies without an overflow check, and a composite write that fails half-way has already changed the buffer."
 },
 "C23": {
  "note": "Write(a, b, ...) at the cursor is proved. WriteManyAt passes the same offset to every argument (C23_write_many_at_refuted); only its one-argument case is right. ReadManyAt cannot be instantiated (its one-argument overload has an undeducible parameter) and is not modelled."
 },
 "C24": {
  "note": "Any legal program over any number of deques and any element type: no access outside a ring, no leak or double destruction, contents/size/at/front/back/forward and reverse iteration equal the list model; returned iterators and capacity too."
 },
 "C25": {
  "note": "Contains and Intersect are proved for all ranges; IsEmpty, GetSize and iteration are proved under the stated conditions and refuted outside them: IsEmpty for open ranges (3,4), GetSize of inclusive full ranges (wraps to 0) and of wide signed ranges (signed overflow), iteration of inclusive ranges ending at the maximum."
 },
 "C69": {
  "note": "Proved while the deque has spare capacity; false when the push reallocates: the argument is read from the freed buffer (C69_push_back_own_element_refuted)."
 },
 "C29": {
  "note": "Cubic and quartic types tolerate x *= x, as does a quadratic type over a prime field; a quadratic type over an extension field does not (C29_self_mul_refuted), and neither does multiplication by a reference to one's own coefficient. C29_quadratic_tower_self_mul gives the exact set of operands for which it is right."
 },
 "C71": {
  "note": "Proved for every exponent except the all-ones one, for which the code returns the inverse (ToNAF overflows): C71_cyclotomic_pow_refuted."
 },
 "C73": {
  "note": "True for prime-field non-residues; the generator looks at the first coefficient only, so -1+2u sets the flag and squaring is wrong."
 },
 "C74": {
  "note": "False whenever the base non-residue is -1 and z is not in Fp: the Frobenius table is built from the base non-residue. The case z = u with p = 1 mod 4 is C70_frobenius_fp4."
 },
 "C75": {
  "note": "False for every divisor: the code returns {0, divisor} (C75_zero_dividend_refuted), and sparse 0/0 yields a quotient. Only the quotient of a zero dividend is right (C75_zero_dividend_quotient_partial)."
 },
 "C76": {
  "note": "False: exponents are reduced modulo p instead of p-1 (x^7 over GF(7) at 3). C76_sparse_evaluate_high_degree gives the value computed."
 },
 "C77": {
  "note": "False: duplicates go unnoticed because the batch inverse skips the zero denominators; no points is undefined behaviour."
 },
 "C78": {
  "note": "False for every odd length: reads one element past the end."
 },
 "C39": {
  "note": "Radix-2 FFT, Create, GetCoset, GetElements and the twiddle tables; the CUDA branch is not modelled."
 },
 "C40": {
  "note": ""
 },
 "C41": {
  "note": "Threads up to 127: BatchInverse fails beyond (C16)."
 },
 "C44": {
  "note": "A full request after a packed-only one returns incomplete tables (for every domain of at least 4 elements); every other history is answered completely."
 },
 "C79": {
  "note": "Exact values proved for all cosets; the claim is false: factors h^n and h'^n' are missing."
 },
 "C43": {
  "note": "Refuted for sizes with a factor q (SerialFFT reads a[k+j] through a reference after overwriting it); proved for the sizes 2^a, serial and parallel, any number of threads and any schedule."
 },
 "C45": {
  "note": "Every pure and in-place operation; aborts on mismatched sizes are part of the theorems."
 },
 "C80": {
  "note": "Refuted: [0] == [] == [0,0] but [0] != [0,0]. Reflexivity, symmetry and transitivity through non-empty vectors are proved."
 },
 "C81": {
  "note": ""
 },
 "C82": {
  "note": "Refuted: 0 instead of 1 when n is a power of k. The theorem says what is returned in every case."
 },
 "C83": {
  "note": "Refuted: the loop counter shadows the accumulator, the small subgroup never counts."
 },
 "C46": {
  "note": "Curves with a = 0, or different operands on any curve. Doubling with a != 0 is C84. Characteristic other than 2; the base field is abstract."
 },
 "C47": {
  "note": "Every curve."
 },
 "C48": {
  "note": "Every curve; zz^3 = zzz^2 is an invariant proved of every constructor and operation."
 },
 "C49": {
  "note": "From affine, Jacobian, projective; conversions out of XYZZ are C85. To affine needs b != 0 (C87). The shift by threads/2 is undefined from 128 threads on (as in C19)."
 },
 "C84": {
  "note": "Refuted: DoDoubleImpl computes z3 = 2(Y+Z) where 2YZ is needed when a != 0. The partial theorem: correct when Y+Z = YZ happens to hold."
 },
 "C85": {
  "note": "Refuted: zz == 1 is taken to mean z = 1, but zzz may be -1; the result is then the opposite point (proved in general, and reached by one mixed addition on the GF(7) test curve). Partial: correct unless zz = 1 and zzz != 1."
 },
 "C86": {
  "note": "Infinity is rejected by IsOnCurve."
 },
 "C87": {
  "note": "Refuted for b = 0: (0,0) is then a curve point but encodes infinity. Proved for b != 0."
 },
 "C50": {
  "note": "Generic over commutative groups; instances for affine/XYZZ, projective, XYZZ and (a = 0) Jacobian points on non-singular curves. Window size choice (floating point in msm_ctx.h) is universally quantified. The icicle GPU path is not modelled."
 },
 "C51": {
  "note": "UpdateWindowTable, ScalarMul, Run and RunSerial; any schedule of the parallel loop."
 },
 "C52": {
  "note": "All four GLV configurations in BUILD.bazel; bounds also for any rows with determinant r."
 },
 "C88": {
  "note": "Partial: correct when the limb counts agree or k2 = 0; refuted in general with BN254 G1's constants."
 },
 "C89": {
  "note": "Partial: refuted for kParallelWindowAndTerm."
 },
 "C53": {
  "note": "Commit, storage layout, subtree split, opening creation and verification; any loop order."
 },
 "C54": {
  "note": "find_collision computes the collision from the two proofs."
 },
 "C90": {
  "note": "Refuted twice: a single leaf is accepted and BuildTree then reads past the end of the tree; with leaves_size_for_parallelization = 1 the subtree loop reads past the end. C53 proves the remaining cases correct."
 },
 "C55": {
  "note": "Commit, open and verify round trip over abstract hash, compression and coordinate maps; packed (SIMD) hashing is assumed lane-wise equal to the scalar one; powersort is modelled by its contract (stable sort)."
 },
 "C56": {
  "note": "The collision is between calls at the same position of the two verifications."
 },
 "C91": {
  "note": "Refuted: heights 8 and 3 are accepted, but opening index 7 reads row 3 of the three-row matrix. C55 gives the exact condition under which openings are defined."
 },
 "C92": {
  "note": "Refuted: [a,b],[c] and [a],[b,c] are interchangeable in one layer, and an empty proof lets the second matrix of a commitment hash(row) be opened to anything. C56 gives the shape conditions under which binding holds."
 },
 "C93": {
  "note": "Refuted for builds without DCHECK: heights 4 and 3 are accepted and the 3-row matrix never enters the tree."
 },
 "C57": {
  "note": "Every permutation, rate >= 1, state and input. The second part must be non-empty: see C94."
 },
 "C58": {
  "note": "Proved under the exact side condition that no request made mid-block asks for exactly kRate elements; the excluded case is C97."
 },
 "C94": {
  "note": "Refuted: after a full block, Absorb of nothing runs the permutation, and the next squeeze differs."
 },
 "C95": {
  "note": "For every length-preserving permutation (injective for the second theorem), every rate and width."
 },
 "C96": {
  "note": "Refuted for every permutation: Hash [a] = Hash [a; 0] when the rate is at least 2. Inherent in the design (callers fix the length); recorded as a finding."
 },
 "C97": {
  "note": "Refuted for every permutation: SqueezeInternal tests output_remaining_size != kRate instead of output_remaining_size != kRate - start, so squeezing 1 and then 2 with rate 2 gives x0, x1, x0."
 },
 "C59": {
  "note": "Every permutation of W lanes, rate 1 <= R <= W, valid challenger and transcript."
 },
 "C60": {
  "note": "Interleaving semantics over the shared atomic flag, every number of threads and range below 2^32; termination bound and progress included. The overload with a preset witness is not modelled."
 },
 "C98": {
  "note": "Refuted for every permutation: the rate part is overwritten, not added with padding, so a trailing zero is invisible in the initial state. Inherent in the overwrite-mode design (same as the reference design it follows); recorded as a finding."
 },
 "C99": {
  "note": "Every hash with fixed output length N >= 1."
 },
 "C100": {
  "note": "Montgomery small fields; the remainder modulo the big modulus is the mathematical one."
 },
 "C101": {
  "note": "Refuted: line 64 constructs the element from the low 32 bits without reduction (a DCHECK in debug builds)."
 },
 "C62": {
  "note": "MergeCycle, CheckSameCycle, GetNextLabel, GetCycleSize over every history of merges of cells of the grid; swap of the mapping of two cells joins exactly their two cycles."
 },
 "C102": {
  "note": "Refuted: the base is pushed before the loop and again when the loop comes back to it."
 },
 "C103": {
  "note": "Refuted: CHECK_LE where CHECK_LT is needed."
 },
 "C104": {
  "note": "GetSuccessivePowers (C15) supplies the first column; the special constant delta of bn254::Fr is not modelled."
 },
 "C63": {
  "note": "Sort is any sorting function and operator< any strict total order; the generator is any sequence."
 },
 "C105": {
  "note": "Row indicator polynomials are modelled by their values on the domain; compression of the expressions by theta is outside the model."
 },
 "C106": {
  "note": "On the rows of the domain; the random evaluation point and the polynomial commitment are outside this theorem."
 },
 "C107": {
  "note": "Same scope as C105; Parallelize with any number of threads."
 },
 "C108": {
  "note": "Same scope as C106."
 },
 "C64": {
  "note": "Full statement. The characteristic must exceed the number of selectors, as documented in the source."
 },
 "C65": {
  "note": "Refuted by a constraint system with gates s0*a and s1*a*a: the compressed second gate has degree 4, above the limit 3, because CombineSimpleSelectors compares the degree of the outer selector instead of the candidate's. The partial theorem covers selectors in order of non-increasing degree."
 },
 "C109": {
  "note": "Gates only: lookups and shuffles go through the same ReplaceSelectors and are not modelled here."
 },
 "C110": {
  "note": "Rotation scale 1 and at most 2^30 rows, which is how the Scroll builder runs it. Rotations within [-2^30, 2^30)."
 },
 "C111": {
  "note": "Same limits as C110."
 },
 "C61": {
  "note": "FoldMatrix folds the polynomial, FoldRow folds the same row, and Prove then Verify accepts for every complete commitment scheme and every challenger; inputs larger than the blowup (C113 is the boundary) and log_blowup >= 1 (ReverseBitsLen(_, 0) is an undefined shift)."
 },
 "C112": {
  "note": "Soundness of the query phase relative to binding commitments, for all indices; the proximity-gap statement for a random subset of indices is not attempted."
 },
 "C113": {
  "note": "False: VerifyQuery stops before it consumes the reduced opening of that size and aborts in CHECK_EQ(ro_idx, ro_size), for every proof."
 },
 "C114": {
  "note": "Base and extension field are one field in the model. The parallel loops are modelled chunk by chunk."
 },
 "C115": {
  "note": "False of the code: CHECK_GE(coset.log_n, ...) is written the other way round, so every larger coset aborts; C115_larger_coset_refuted."
 },
 "C116": {
  "note": "Base and extension field are one field in the model."
 },
 "C117": {
  "note": "False of the code: the batch inversion leaves the zero difference zero and the common factor is zero, so all columns come out zero; C117_point_of_the_coset_refuted."
 },
 "C118": {
  "note": "Sizes 2^k with k > 0 (the one-row case is C122); small fields, where these functions exist. Packed lanes are modelled elementwise."
 },
 "C119": {
  "note": "Full statement for both row orders, any schedule and thread count; existence of the column interpolants proved beside it."
 },
 "C120": {
  "note": "Refuted: the const overload drops reverse_at_last and always returns natural order; the partial theorem says what it returns."
 },
 "C121": {
  "note": "Refuted: FFTBatch ignores the coset offset; on a domain without offset it agrees with FFT column by column (partial)."
 },
 "C122": {
  "note": "Refuted: the twiddle tables of the size-one domain are empty and the CHECK on them aborts."
 },
 "C123": {
  "note": "Matrices of one row are excluded (C113 and C122 show that they fail). ExtF and F are one field in the model; the matrix commitment schemes and the challenger are arbitrary."
 },
 "C124": {
  "note": "Refuted for every run of the verifier: opened values enter only through their combination by powers of alpha, which is sampled before they exist and they are never observed, so any value can be replaced and compensated in the next column. The caller has to observe the values before, which the API cannot enforce."
 },
 "C125": {
  "note": "All positions accepted; commitments assumed binding. What FRI's acceptance then says about the vectors is C126 (one height) and C127 (several)."
 },
 "C126": {
  "note": "All positions accepted; commitments assumed binding. The probability argument over sampled positions is not modelled."
 },
 "C127": {
  "note": "Refuted: a smaller input is added to the folded vector with no random factor. For every vector e, the inputs (e with each entry doubled, -e) cancel after one folding for every challenge, so the honest prover's proof is accepted although neither input is of low degree."
 },
 "C128": {
  "note": "All operators, for terms in any order; sort is any function returning a sorted permutation."
 },
 "C129": {
  "note": "End to end from the circuit's calls to the matrices. The counts of non-zero entries in ConstraintMatrices are not modelled. Circuits with the zero variable are excluded (C131), as is a second Finalize (C132)."
 },
 "C130": {
  "note": "Prove mode with matrices (construct_matrices = true). In prove mode without matrices EnforceConstraint aborts in this code, which the model has as None."
 },
 "C131": {
  "note": "Refuted: Variable::Zero() has no index, so MakeRow dereferences an empty optional for a non-zero coefficient."
 },
 "C132": {
  "note": "Refuted: ComputeLCNumTimesUsed sizes its vector by the number of combinations left and indexes it by their keys, which have gaps after the first Finalize."
 },
 "C133": {
  "note": "The cache is modelled explicitly; the statement is about every cache reachable by interleaving calls and evaluations before Finalize."
 },
 "C134": {
  "note": "Domain size at least constraints + instance variables, as the library's callers create it (C139). The counts of variables copied into the result are those of the matrices."
 },
 "C135": {
  "note": "The transforms are those of FFTModel with a complete twiddle cache entry. gen is the multiplicative generator, outside the domain."
 },
 "C136": {
  "note": "The converse direction of C135, about arbitrary h."
 },
 "C137": {
  "note": "The callback is run through the model of base::Parallelize."
 },
 "C138": {
  "note": "Together with C129, C130: the matrices of the key are those of the proof."
 },
 "C139": {
  "note": "Refuted: CHECK_GE(domain->size(), num_constraints) lets a domain through that has no room for the instance variables."
 },
 "C140": {
  "note": "The groups and the pairing are any groups over the scalar field with a bilinear map; multi-scalar multiplication is its specification (C50 and C51 are about the algorithms)."
 },
 "C141": {
  "note": "Aborts only for a key whose list is empty."
 },
 "C142": {
  "note": "For the prover of the library; C146 is about arbitrary algebraic provers."
 },
 "C143": {
  "note": "r1 = 0 aborts: C144."
 },
 "C144": {
  "note": "Refuted: the loop repeats only while r1 and r2 are both zero, so r1 = 0 with r2 not zero gets through, and inverting r1 aborts."
 },
 "C145": {
  "note": "Refuted: ProvingKey::Load inverts gamma and delta in one batch, which skips zeros, so the key loads; VerifyingKey::Load alone aborts. The accepted forgery is (alpha, beta, 0)."
 },
 "C146": {
  "note": "The algebraic group model in its concrete form: weights fixed, equations over the secrets. The probability over random secrets is left to the reader (Schwartz-Zippel on the complement of a grid)."
 },
 "C147": {
  "note": "With C146: the circuit accepts iff some weights are accepted on every grid."
 },
 "C148": {
  "note": "Groups are abstract, multi-scalar multiplication is its specification (C50, C51). Sizes above 2^62 are not covered."
 },
 "C149": {
  "note": "The algebraic form: the count of secrets replaces the discrete-logarithm assumption."
 },
 "C150": {
  "note": ""
 },
 "C151": {
  "note": "Refuted over F13: the first two of four Lagrange points are not the Lagrange points of the domain of size two."
 },
 "C152": {
  "note": "Refuted: the constructor used by ReadFrom stores the pair (G2, -tau G2) where setup stores (tau G2, -G2). The verifier read back rejects honest proofs of both schemes, and its GWC accepts any value at the point 0 with the commitment to X (p(X) - y)."
 },
 "C153": {
  "note": ""
 },
 "C154": {
  "note": "The prover's points are commitments to polynomials (algebraic group model); sets of challenges and secrets replace probabilities. The polynomials behind the commitments are given."
 },
 "C155": {
  "note": ""
 },
 "C156": {
  "note": "As C154. Only the first claim about a polynomial and point is checked: C157."
 },
 "C157": {
  "note": "Refuted: the second claim about the same polynomial and point is ignored."
 },
 "C158": {
  "note": "References are numbers; two references to one object are the same number."
 },
 "C159": {
  "note": "Refuted: the batch stays open and the next call aborts in SetBatchMode."
 },
 "C160": {
  "note": ""
 },
 "C161": {
  "note": "Division of the empty vector by a vector with zeros returns the empty vector and is not covered by the claim about zeros."
 },
 "C162": {
  "note": "Refuted: every such call fails CHECK_EQ."
 },
 "C163": {
  "note": ""
 },
 "C164": {
  "note": "Refuted: the empty evaluations equal zeros of every size, which differ from each other."
 },
 "C165": {
  "note": "Shared pointers are numbers; the evaluations behind them do not change."
 },
 "C166": {
  "note": "ToBigInt is any function that maps 0, 1, ... to themselves and every element to an integer standing for it."
 },
 "C167": {
  "note": ""
 },
 "C168": {
  "note": "Counting replaces probability; the verifier's draws are arguments. An abort counts as rejection (C173)."
 },
 "C169": {
  "note": "Refuted: the verifier reads element 1 of a vector of one element."
 },
 "C170": {
  "note": "Refuted: the first call moves randomness_ away and the second indexes it."
 },
 "C171": {
  "note": "Refuted: the operator compares flattened_ml_evaluations with itself."
 },
 "C172": {
  "note": "Refuted over F13 with three values for two variables."
 },
 "C173": {
  "note": "Refuted: CHECK_EQ fails."
 },
 "C174": {
  "note": "For every matrix inversion routine that inverts nonsingular matrices (Eigen's inverse is a parameter). Rows of the optimised constants that are never written are arbitrary."
 },
 "C175": {
  "note": ""
 },
 "C176": {
  "note": "Injectivity; on a finite state space this is bijectivity."
 },
 "C177": {
  "note": ""
 },
 "C178": {
  "note": ""
 },
 "C179": {
  "note": "Scalar Montgomery, scalar Mersenne31 and packed versions; C181 is the finding about DCHECKs."
 },
 "C180": {
  "note": ""
 },
 "C181": {
  "note": "Refuted: for the state (1, 0, ..., 0, p - 1) the second sum is p, whose low 31 bits are the modulus; F(lo) fails DCHECK_LT(value_, GetModulus()). The result in a release build is right (C179)."
 },
 "C182": {
  "note": "Refuted: WriteTo and ReadFrom omit internal_shifts; the copy compares equal and reads past the end of an empty vector. Not covered by the repository's tests as they use diagonals."
 },
 "C183": {
  "note": "AVX2 on 8 lanes, AVX-512 on 16, NEON on 4: stated for any number of lanes."
 },
 "C184": {
  "note": "With the constant inverse32 of the generated configuration."
 },
 "C185": {
  "note": ""
 },
 "C186": {
  "note": ""
 },
 "C187": {
  "note": ""
 },
 "C188": {
  "note": "Refuted: BatchInverseSerial skips zero lanes, so the CHECK passes and the returned value times the original is not one."
 },
 "C189": {
  "note": "Montgomery fields: every 32-bit integer. Mersenne31: integers below the modulus; refuted for others: the packed constructor stores the value unreduced and has no check, unlike the scalar constructor's DCHECK."
 },
 "C190": {
  "note": ""
 },
 "C191": {
  "note": "The counters are unbounded in the model (2^64 increments are out of reach). Atomic increments are modelled as one lookup after another in an arbitrary order."
 },
 "C192": {
  "note": "Arguments without inputs are excluded: for them the code would use what the shared storage held before."
 },
 "C193": {
  "note": "On the rows of the domain: that vanishing on the rows follows from the quotient check is the vanishing argument, not part of this property."
 },
 "C194": {
  "note": ""
 },
 "C195": {
  "note": "Refuted twice: if t(x) + beta = 0 the verifier dereferences the empty optional of tau.Inverse() (the evaluations are part of the proof, written after beta is known); if some f_i(x) + beta = 0 with t(x) + beta not zero, the batch inversion leaves zero and the verifier's right side is zero, unlike the constraint polynomial's."
 },
 "C196": {
  "note": ""
 },
 "C197": {
  "note": "On the rows of the domain, as for C193."
 },
 "C198": {
  "note": "Refuted: the loop steps over two evaluators per argument and uses that index for the vector of grand products, which has one per argument; with two or more arguments the read is out of bounds. Proved for one argument."
 },
 "C199": {
  "note": ""
 },
 "C200": {
  "note": "Circuits without shuffle and log-derivative lookup arguments (their constraints: C192-C198); vendor Scroll; commitments, transcript and blinding of the quotient are not part of it. 'satisfied' is about the verifier's expressions on the rows; C106 and C108 say what they mean."
 },
 "C201": {
  "note": "A counting statement: openings are assumed to be of fixed polynomials (the commitment scheme is C124 and C148-C155)."
 },
 "C202": {
  "note": ""
 },
 "C203": {
  "note": ""
 },
 "C204": {
  "note": "As C200."
 },
 "C205": {
  "note": "Recorded as behaviour: with kQueryInstance = false a public input that nearly fills the domain makes the verifier abort."
 },
 "C206": {
  "note": ""
 },
 "C207": {
  "note": "The CHECK behind the division turns a challenge inside the domain into an abort instead of a rejection."
 },
 "C208": {
  "note": "Refuted: the graph evaluators take rows modulo n while the PSE columns have the size of the extended domain, so the column repeats with period n; the selectors of the permutation and lookups are never filled for that vendor. The vendor is reachable through the bn254 PSE C API."
 },
 "C209": {
  "note": ""
 },
 "C210": {
  "note": "Primes of the form 2^k + 1 are C221."
 },
 "C211": {
  "note": ""
 },
 "C212": {
  "note": ""
 },
 "C213": {
  "note": "SquareRoot enters through its specification, which C210 and C211 prove."
 },
 "C214": {
  "note": "Refuted for points of order two: -0 = 0 is even. The documented promise does not hold for them; CreateFromX still returns the only point."
 },
 "C215": {
  "note": "n = 0 is excluded. Decompose's double-precision powers are taken to be exact."
 },
 "C216": {
  "note": "Refuted: the generator writes the root in Montgomery form also for fields without it, and GetRootOfUnity reads it as the element, so GetRootOfUnity(3) returns 1. For powers of two the result is primitive (proved), because 2^64 has order 3 modulo p."
 },
 "C217": {
  "note": ""
 },
 "C218": {
  "note": "Refuted: x = 0 marks infinity in the legacy format."
 },
 "C219": {
  "note": "Refuted: x + p is accepted when it fits beside the flags (254-bit fields such as bn254 in the legacy format), and in the new format the infinity flag of a finite point is ignored."
 },
 "C220": {
  "note": "Refuted in the new format: the test compares kModulusBits mod 8 with the number of flags, which accepts 255-bit moduli with one free bit and rejects 248- or 249-bit ones with many. In the legacy format acceptance implies a free bit (proved). Nothing calls CheckBits."
 },
 "C221": {
  "note": "Refuted: for p = 2^k + 1 ComputeTrace returns 0 instead of 1 and the generated root is 1; before Init() it is 0. In both cases the loop does not end."
 },
 "C222": {
  "note": ""
 },
 "C223": {
  "note": ""
 },
 "C225": {
  "note": ""
 },
 "C226": {
  "note": ""
 },
 "C224": {
  "note": "The sort routines enter through their specification."
 },
 "C227": {
  "note": "Lookup tables are C229. A region's callback is taken to make the same calls in both passes."
 },
 "C228": {
  "note": "Lookup tables are C229."
 },
 "C229": {
  "note": ""
 },
 "C230": {
  "note": "Refuted: AssignLookupTable always calls FillFromRow, whose CHECK wants the first row to fill to be usable (upstream halo2 does the same)."
 },
 "C231": {
  "note": "Refuted for every table: AssignFixed of the WitnessCollection does not run the callback, so the default value is an unknown Value, and value() dereferences its empty optional. The reference is then handed to a FillFromRow that ignores it."
 },
 "C232": {
  "note": "Refuted: operator!= calls itself instead of operator==, and never returns."
 },
 "C233": {
  "note": "Refuted: two fixed, two instance or two advice columns of one phase are unordered, against the comment that the ordering is consensus-critical. By C225 the layout does not depend on it."
 },
 "C234": {
  "note": "Refuted: regions of equal advice area are placed in the order the unstable sort gives them; two correct sorts give different layouts."
 },
 "C235": {
  "note": "Refuted: the second value for row 0 is stored before the call returns false, while the padding keeps the first."
 },
 "C236": {
  "note": "Proved for every power of two, the code has 1 to 128 bits."
 },
 "C237": {
  "note": ""
 },
 "C238": {
  "note": ""
 },
 "C239": {
  "note": "Refuted at every width above one bit: TwoInv inverts the element whose representation is 2, while One + One is zero and has no inverse. (At one bit the constructor's DCHECK fails.)"
 },
 "C240": {
  "note": ""
 },
 "C242": {
  "note": ""
 },
 "C241": {
  "note": "Longer points are refused; refuted for shorter ones: the CHECK_LE is the wrong way round, and a missing coordinate is read outside the vector."
 },
 "C243": {
  "note": "Refuted: Literal::operator< compares only the last element and the length, so x0 x2 and x1 x2 count as equal and their coefficients are added up under one of them. Proved where unordered literals are the same monomial, in particular for powers of single variables."
 },
 "C244": {
  "note": "Proved for at least one term and total degrees below 2^31. Refuted otherwise: Degree accumulates in an int, so x^(2^32) counts as constant. For no terms see C245."
 },
 "C245": {
  "note": "Refuted for every non-zero p: Compact of an empty vector starts reading at begin() + 1."
 },
 "C246": {
  "note": "Refuted for all non-zero summands: the result is default-initialised, and num_vars_ is never set."
 },
 "C247": {
  "note": "Refuted: Degree is that of the last term, terms are ordered by variable first. Proved for sorted polynomials in one variable."
 },
 "C248": {
  "note": "Refuted: x1 x2 is not found in x0 x2 + x1 x2, since the two literals are not ordered. Proved for strictly ascending terms."
 },
 "C249": {
  "note": ""
 },
 "C250": {
  "note": ""
 },
 "C251": {
  "note": "Shows that no int64_t operation of Jump on the matrix overflows; left shifts of negative numbers are taken as in C++20."
 },
 "C252": {
  "note": "Shows that no int64_t operation overflows, on delta neither: it stays within 64 N + 63."
 },
 "C253": {
  "note": ""
 },
 "C254": {
  "note": "The zero seed is accepted and yields zeros for ever (C254_zero_seed_refuted); for every other seed four consecutive outputs are never all zero."
 },
 "C255": {
  "note": ""
 },
 "C256": {
  "note": "chacha_core is BoringSSL's and is a parameter: the theorems hold for every block function. The instance of RFC 8439 gives the first value of the unit test."
 },
 "C257": {
  "note": "False of ChaCha20RNG (C257_chacha_reseed_refuted): SetSeed keeps the unread words of the block and the counter; C257_chacha_reseed_partial says exactly what is drawn. True of XORShiftRNG (C254)."
 },
 "C258": {
  "note": "False (C258_restored_index_refuted): the index read is not checked, and one above 16 makes the next draw read past output_. C258_restored_index_partial: this is the only case."
 },
 "C259": {
  "note": ""
 },
 "C260": {
  "note": "With 2^32 - 1 factors and the last row the count wraps to zero and nothing is blinded (C260_blind_wraps_refuted); the other theorems exclude that number."
 },
 "C261": {
  "note": ""
 },
 "C262": {
  "note": "Entries wider than 12 or 10 bits are cut without notice, so two state lengths can give one generator (C262_grain_wide_config_refuted); C262_grain_distinct_partial: that is the only way."
 },
 "C263": {
  "note": "Termination: the polynomial of the recurrence is squarefree (a Bezout identity of its even and odd parts), so the first bits of the pairs cannot be zero 80 times."
 },
 "C264": {
  "note": "C264_rejection_sampling_partial: that the loop over rejected integers ends is not proved; it goes on only while all integers drawn are at least the modulus."
 },
 "C265": {
  "note": "As C264: termination of the rejection loop is not proved."
 },
 "C266": {
  "note": ""
 },
 "C267": {
  "note": "Entries never committed to are what a new Bucket is."
 },
 "C268": {
  "note": "False (C268_batch_blinding_refuted): the batch DoCommit does not use the random value, so commitments of a batch are not hiding and differ from those made one by one. C268_batch_unblinded_partial: they are the commitments with the random value zero."
 },
 "C269": {
  "note": "A callback returning Value::Unknown for a column of the current phase is undefined behaviour (as in C231), here the outcome Undefined."
 },
 "C270": {
  "note": "One circuit and one phase. The comment in the code speaks of blinding factors, but no random value is written into the column: C270_inactive_rows_fixed."
 }
}