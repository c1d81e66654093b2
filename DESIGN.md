# Formal model of kroma-network/tachyon in Rocq (Coq 8.16.1)

The model is written from the text of `/repo` (the code is neither built nor run).
Every definition in a `*Model.v` file cites the file and lines it models.

## Layout of `rocq/theories`

| suffix | contents |
|---|---|
| `Field.v`, `Zp.v`, `ListUtil.v` | shared mathematics: the record `fld` of fields, concrete prime fields used for examples |
| `<Area>Model.v` | executable Gallina transcription of the C++ code, cited line by line, no proofs |
| `<Area>Spec.v` | the small independent specification (plain mathematics, no model helpers) |
| `<Area>Proof.v` | lemmas and proofs |
| `<Area>Props.v` | the property theorems only, each `exact lemma.` with `Print Assumptions`, plus non-vacuity `Example`s |

Conventions

* Words are `Z` with explicit `mod 2^32` / `mod 2^64` wherever the C++ type wraps.
* Limb vectors are `list Z`, least significant limb first (the layout used on little-endian hosts).
* Undefined behaviour (out-of-bounds access, over-wide shift, failed `CHECK`) is a distinct outcome (`None`, `UB`, or an error constructor), never a default value.
* A field is a record `fld` bundling carrier, operations, decidable equality and the field laws;
  theorems quantify over all of them, so they are about the algorithms and not about one modulus.
* Concurrency: an OpenMP loop is modelled as a set of chunk tasks over disjoint slices; theorems quantify over the
  chunking, the number of threads and, where the tasks share state, over the order of execution.
* A property the code violates is kept in full; the violation is a theorem ending in `_refuted` with a concrete witness,
  and the part that does hold is proved under the guard that makes it true (`_partial`).

## Trusted base

* Coq 8.16.1's kernel (and `coqchk`, which re-checks every compiled module). `vm_compute` occurs in examples and in a few closed computations; `coqchk` re-checks these with the ordinary conversion.
* Axioms: none of our own. `Print Assumptions` under every theorem `Cnn_*` of the `*Props.v` files answers "Closed under the global context".
  `coqchk -o` additionally lists the axioms of modules that are merely loaded (`Coq.ssr.ssrunder`, through ssreflect's prelude); no theorem depends on them.
* Libraries used: only the Coq standard library (`ZArith`, `List`, `Permutation`, `Ring`, `Field`, `Lia`, ...).
* The correspondence between the C++ text and the `*Model.v` files. It is by reading, function by function; every definition cites its lines, and every simplification is stated in the comment of the definition or at the head of its file.
* The `*Spec.v` files and the statements in the `*Props.v` files: these are what a reader has to read to know what was proved.

### What is modelled

| part of `/repo/tachyon` | model |
|---|---|
| `base/bits`, `base/range`, `base/openmp`/`parallelize`, `base/buffer`, `base/containers` (circular deque), `base/containers/adapters`/chunked views as used by the loops | `BitsModel`, `RangeModel`, `ParallelizeModel`, `BufferModel`, `DequeModel` |
| `math/base`: big integers, arithmetics, semigroups/groups/rings (powers, batch inverse, linear combinations), rational field, egcd | `BigIntModel`, `SemigroupModel`, `RationalModel`, `SmallFieldModel` |
| `math/finite_fields`: prime fields (large and 32-bit), extension towers, Frobenius, cyclotomic operations, code emitted by the generator for small multiples | `PrimeFieldModel`, `SmallFieldModel`, `ExtFieldModel`, `TowerModel` |
| `math/polynomials/univariate`: dense, sparse, evaluations, radix-2 and mixed-radix domains, twiddle cache, batch transforms, Lagrange and vanishing polynomials | `PolyModel`, `FFTModel`, `DomainModel`, `EvalsModel`, `MixedModel` |
| `math/elliptic_curves`: short Weierstrass points (affine, Jacobian, projective, XYZZ), Pippenger MSM with its adapter, fixed-base MSM, GLV | `ECModel`, `MSMModel` |
| `crypto`: binary Merkle tree, field Merkle tree and its matrix commitment scheme, Poseidon-style sponges and compression over an abstract permutation, challengers and proof of work, FRI, two-adic cosets, the two-adic FRI polynomial commitment | `MerkleModel`, `FieldMerkleModel`, `SpongeModel`, `ChallengerModel`, `FriModel`, `CosetModel`, `PcsModel` |
| `zk/r1cs/constraint_system`: linear combinations, the constraint system up to the matrices | `R1csModel` |
| `zk/r1cs/constraint_system/quadratic_arithmetic_program.h`: InstanceMap, WitnessMap, ComputeHQuery | `QapModel` |
| `zk/r1cs/groth16`: loading of keys, prover, re-randomisation, verifier. Groups are any groups over the scalar field with a bilinear map; the multi-scalar multiplication and the fixed-base multiplication are their specifications; drawing of random values is an input | `GrothModel` |
| `crypto/commitments/kzg`: KZG setup, Downsize, Commit, CommitLagrange; GWC and SHPlonk prover, verifier, constructor used by ReadFrom; `crypto/commitments/polynomial_openings.h`. Groups as in `GrothModel`; the transcript is replaced by its challenges as arguments and the proof as a list of points; references are numbers; CPU paths only | `KzgModel` |
| `math/polynomials/multivariate`: dense multilinear evaluations, their operators, linear combinations; `crypto/sumcheck/multilinear`: proving key, prover, verifier, InterpolateUniPoly, RunInteractiveProtocol. Random draws are arguments; shared pointers are numbers; the sparse multivariate polynomials are not modelled | `SumcheckModel` |
| `crypto/hashes/sponge/poseidon` and `poseidon2`: configuration, optimised constants, sparse matrices, permutations, external and internal matrices, the integer version for small fields, the copied configuration. Eigen's inverse() is a parameter; the Grain LFSR and the tables of constants are not modelled | `PoseidonModel` |
| Packed 32-bit prime fields: `packed_prime_field32_{avx2,avx512,neon}.h`, `packed_prime_field_base.h` (Inverse), Mul of `packed_mersenne31_*`; instructions are modelled by their documented effect on lanes | `SimdModel` |
| Log-derivative lookup: `zk/lookup/log_derivative_halo2/{prover_impl,evaluator,verifier}.h`, `BinarySearchByKey`; shuffle: `zk/shuffle/{prover_impl,evaluator,verifier}.h`; `compress_expression.h`; columns are functions of the row, expressions are given by their values | `LogDerivModel` |
| Vanishing argument: `zk/plonk/vanishing/*.h` (both vendors; PSE without permutation and lookups), `permutation_evaluator.h`, `lookup/halo2/evaluator.h`, selectors of `proving_key.h`, `EvaluateH`, `ComputeAuxValues`, `ComputeInstanceEvalsVec` of `halo2/verifier.h`, degrees in `constraint_system.h`; without shuffles, log-derivative lookups, commitments and transcript | `VanishingModel` |
| Square roots and decompression: `math/finite_fields/square_root_algorithms/*.h`, `SquareRoot`, `Legendre`, `Decompose` and large-subgroup `GetRootOfUnity` of `prime_field_base.h`, the constants of `prime_field_generator.cc` they use, `GetYsFromX`, `GetPointFromX`, `CreateFromX` | `SqrtModel` |
| Points in proofs: `zk/plonk/halo2/proof_serializer.h` for affine points over prime fields | `PointSerModel` |
| Floor planners: `zk/plonk/layout/region_shape.h`, `floor_planner/{allocations,allocated_region,plan_region,single_chip_layouter}.h`, `floor_planner/v1/*` (regions and constants; not namespaces, challenges, `ConstrainInstance`) | `LayoutModel` |
| Lookup table layout: `floor_planner/{simple_lookup_table_layouter,lookup_table_assigner}.h`, fixed columns of `keys/assembly.h`, comparison in `zk/base/value.h` | `TableModel` |
| Binary fields: `math/finite_fields/binary_fields/{binary_field,binary_tower_operations}.h` (arithmetic; not Random, strings, PackedBinaryField) | `BinModel` |
| Sparse multivariate polynomials: `math/polynomials/multivariate/{multivariate_sparse_coefficients,multivariate_polynomial_ops}.h` (not Random, ToString) | `MvSparseModel` |
| Bernstein-Yang inverter: `math/base/byinverter.h` (all but string conversions and unused operators), `finite_fields/prime_field_fallback.h` (Inverse) | `ByModel` |
| Random generators: `crypto/random` (all but SetRandomSeed), `zk/plonk/halo2/random_field_generator.h`, `prime_field_conversion.h`, `zk/base/blinder.h`, `zk/base/rotation.h` (GetIndex) | `RngModel` |
| Generator of the Poseidon constants: `poseidon_grain_lfsr.h`, draws of FindPoseidonARKAndMDS (`poseidon_config.h`); broadcasting to packed fields is left out | `GrainModel` |
| Pedersen commitments and batch mode: `crypto/commitments/pedersen/pedersen.h` (CPU; without Setup and Copyable), `vector_commitment_scheme.h`, `batch_commitment_state.h`, batch part of `kzg.h` | `PedersenModel` |
| Witness collection: `zk/plonk/halo2/witness_collection.h`, lines 61-85 of `synthesizer.h` | `WitnessModel` |
| `zk`: permutation cycles and columns, lookup permutation, grand products, expressions, selector compression, constraint graphs | `CycleModel`, `CycleLabelModel`, `LookupModel`, `GrandProductModel`, `ExprModel`, `SelectorModel`, `CompressModel`, `GraphModel` |

### What is not modelled

* Generated or hand-written assembly, the 64-bit special Goldilocks code, CUDA/Metal/icicle paths: assumed to compute what the portable code computes.
* The memory model: C++ objects are values, aliasing is modelled only where an operand may be the destination (deque, extension fields, points, FFT). Allocation never fails.
* Data races: a parallel loop is a set of tasks run in an arbitrary order (each atomic) unless the tasks share a variable, in which case the steps are interleaved (proof of work).
* Hash functions (SHA, Blake, Keccak), random number generators, JSON, logging, tracing, command line parsing, file access, language bindings, the build system.
* Cryptographic hardness: binding statements are either collision extractions (two different openings exhibit a collision) or counting statements over the challenge.

## Per-property plan

| id | what is modelled | how it is proved |
|---|---|---|
| C01 | limb loops `DoAdd`/`DoSub` on top of the word-level carry primitives | induction on limbs, value function `sum l_i 2^(64 i)` |
| C02 | double loop of `Multiply` | row invariant, then induction on rows |
| C03 | bit loop of `Divide` including the carry out of `MulBy2` | loop invariant on quotient/remainder prefix |
| C04 | limb-wise shift loops followed by the residual bit shift | value lemmas for one-limb and sub-limb shifts |
| C05 | comparison scans | induction from the most significant limb |
| C06 | codec loops | round-trip by value characterisation |
| C07 | digit loop with wrapping addition | loop invariant; refuted at the all-ones value, proved below it |
| C08 | `MontgomeryReduce`, `FromMontgomery` limb loops | row invariant modulo m and size bound |
| C09 | fast CIOS multiplication and slow path, add/sub/double/negate with `Clamp` | Montgomery-form homomorphism to Z/p |
| C10 | small Montgomery word functions | modular arithmetic in Z |
| C11 | Mersenne31 `Reduce` | bounds plus congruence modulo 2^31-1 |
| C12 | Kaliski-style loop of `MontgomeryInverse` | loop invariant, measure for termination |
| C13 | fallback word primitive | refuted by computation; the 32-bit version proved |
| C14 | bit-iterator loops of `Pow`, `ScalarMul`, `PowWithTable` | induction on bits in an arbitrary monoid |
| C15 | chunked powers | chunk lemma + concatenation |
| C16 | forward/backward passes of `DoBatchInverse` | prefix-product invariant |
| C17 | pairs (num, den) | field identities; `IsOne`, `IsMinusOne`, `BatchEvaluate` refuted |
| C18 | `Parallelize` chunk arithmetic, arbitrary permutation of chunk executions | partition lemma; commuting disjoint writes |
| C19 | `ParallelizeResize` span arithmetic with wrap | refuted for shrinking, proved for growing |
| C20 | byte-level endian codecs | round-trip |
| C21 | Copyable combinators | structural induction over a universe of types |
| C22 | `ReadAt`/`WriteAt` bound checks, `ReadPtrAt` | wrap-aware arithmetic; `ReadPtrAt` refuted |
| C23 | `WriteManyAt` | refuted; `WriteMany` proved |
| C24 | ring buffer with begin/end indices | refinement to `list` by induction over operation histories |
| C25 | Range | interval reasoning; exclusive and maximal ranges refuted |
| C26-C28 | Karatsuba, CH-SQR, Toom-Cook formulas over any field | `ring`/`field`, norm argument for inverses |
| C29 | sequential assignment semantics with aliasing | refuted for quadratic towers, proved for cubic/quartic |
| C30, C31 | sparse products, Granger-Scott squaring | ring identities; membership equations |
| C32-C38, C75-C78 | dense and sparse coefficient vectors, all operators incl. in-place and mixed (`PolyModel.v`) | denotation as coefficient functions `nat -> K`, convolution, loop invariants; C75-C78 refuted with witnesses |
| C39, C40 | radix-2 domain, twiddle tables, in-place butterflies under any loop schedule (`FFTModel.v`) | layer invariant on index functions, bit reversal, orthogonality of roots of unity |
| C41, C42, C79 | Lagrange, vanishing and filter polynomials (`DomainModel.v`) | product formula for X^n - h^n, uniqueness of interpolation; C79 refuted, exact factors proved |
| C43 | mixed-radix DoFFT/DoIFFT, BestFFT, SerialFFT, ParallelFFT (MixedModel.v) | sizes 2^a proved for every thread count; sizes with a factor q refuted by aliasing |
| C44 | cache as association list | history semantics; refuted |
| C45 | UnivariateEvaluations and its operations (EvalsModel.v) | pointwise, with empty-as-zero |
| C46 | ECModel: Jacobian add/mixed add/double as sequences of coordinate updates with aliasing | field identities per case against ECSpec.plus; in-place = pure |
| C50 | Pippenger (signed and unsigned digits), adapter with four strategies, any schedule, in an arbitrary commutative group; curve instances via the proved group law | digit-sum identities, bucket sums, Horner over windows, chunk partition |
| C51 | fixed-base table, ScalarMul, Run | table invariant, induction over windows |
| C52 | GLV::Decompose with the repository's constants | lattice rows vanish mod r; error bounds of truncating division |
| C53, C54, C90 | `binary_merkle_tree.h` over an array storage with explicit size_t arithmetic; out-of-range access is an outcome | refinement of the array loops to the recursive Merkle root; collision extraction by recursion along the two paths; C90 refuted |
| C55, C56, C91-C93 | `field_merkle_tree.h`, `field_merkle_tree_mmcs.h` over abstract hash/compress; matrices as lists of rows | induction over layers, builder and verifier sort alike; collision found among the verifier's own calls; padded-row openings (C91), unchecked shapes (C92) and unhashed matrices (C93) refuted |
| C57, C58, C94-C97 | SpongeModel.v: Absorb/Squeeze loops of the Poseidon sponge, DoHash of the padding-free sponge, over an abstract permutation | loop invariants against a one-element-at-a-time sponge; induction over blocks for the collision reduction; witnesses for C94, C96, C97 |
| C59, C98-C101 | ChallengerModel.v: DoObserve/DoSample/Duplex of the duplex and multi-field challengers, Reduce/Split, HashChallenger | generic invariant over histories, instantiated; challenges of a transcript given by a separate recursive specification |
| C60 | Grind as interleaved workers over a shared flag | invariant over all interleavings, decreasing cost, coverage of the range by the chunks |
| C61 | FoldMatrix, FoldRow, CommitPhase, AnswerQuery, Prove, VerifyQuery, Verify over an abstract commitment scheme and challenger (`FriModel.v`) | fold lemma by two-step induction on the coefficients; invariant of the commit loop against the verifier's loop |
| C62 | CycleModel.v: mapping/aux/sizes tables, MergeCycle and its relabelling loop | invariant over merge histories; orbits of a swapped permutation (CycleProof.v) |
| C63, C105, C106 | `LookupModel.v`: counts, scan, leftovers, blinding; `GrandProductModel.v`: grand product with batch inversion, verifier expressions | multiset reasoning; telescoping; roots of products of (x + b) counted over the challenges |
| C64, C65 | Process, CombineSimpleSelectors, ConstructCombinedSelector, ExclusionMatrix (`SelectorModel.v`) | invariant on the assignments made so far; distinct roots 1..k; C65 refuted by computation, proved for non-increasing degrees |
| C66 | `base/bits.h`, `bits.cc` on unbounded integers with explicit width | power-of-two arithmetic, digit recursion for the reversal; bit length 0 refuted (undefined shift) |
| C67 | `math/base/egcd.h` with every int64 operation overflow-checked; `SmallPrimeField::Inverse` | loop invariant bounding the Bezout coefficients by the inputs |
| C68 | default and user-supplied reductions of `small_prime_field_config.h.tpl` | refuted by computation for the default reduction and 32-bit moduli; proved for any correct reduction |
| C69 | `push_back` of a reference into the same deque | refuted on a full deque; proved with spare capacity |
| C70, C74 | Frobenius coefficient tables and FrobeniusMapInPlace of every level | binomial theorem in characteristic p, Euler's criterion per level; refuted for Fp4 over Fp2(i) with a non-residue outside Fp |
| C71 | DoCyclotomicPow over the reversed NAF | loop invariant x^a * inv^b; refuted for the all-ones exponent |
| C72, C73 | emitted operation lists of the generator; overrides | bit-by-bit evaluation; `ring`; flag refuted for multi-coefficient non-residues |
| C80 | operator== of UnivariateEvaluations | transitivity refuted through the empty vector |
| C81 | ComputeAdicity | induction over the divisions |
| C82 | ComputeTrace | what it returns in every case; refuted for powers |
| C83 | MaxDegreeForMixedRadixEvaluationDomain | the shadowing loop ends and contributes nothing; refuted |
| C47 | same for projective, incl. affine DoubleProjective | field identities per case |
| C48 | same for XYZZ, incl. affine DoubleXYZZ | substitute zz = z^2, zzz = z^3 (from zz^3 = zzz^2), field identities |
| C49 | conversions, batch normalisation over the parallel chunks of C17 and the inverses of C19 | field identities; tiling of chunks |
| C84 | Jacobian doubling with a != 0 | refuted by a concrete curve; correct when Y+Z = YZ |
| C85 | XYZZ conversions | correct unless zz = 1, zzz = -1; then the opposite point; reachable witness |
| C86 | IsOnCurve for the four kinds of points, affine ==, Negate, IsZero | field identities |
| C87 | affine encoding of infinity | b != 0: not_origin; b = 0 refuted |
| C88 | GLV::Mul | aligned loop invariant; exact value with the shift; refuted by BN254 G1 constants |
| C89 | thread limit around the adapter | direct; refuted |
| C102 | GetAllLabels | refuted: fresh store returns [l; l] |
| C103 | PermutationAssembly::Copy | refuted: row = rows passes the CHECKs and is out of bounds |
| C104 | CycleLabelModel.v: unpermuted table, delta, GeneratePermutations | labels distinct by orders (T odd, 2^k), with C62 |
| C107, C108 | chunked grand products over the permutation columns of C104 (`GrandProductModel.v`) | reindexing by the next-cell permutation; telescoping over chunks; root counting and pigeonhole over the challenges |
| C109 | CompressSelectors and ReplaceSelectors on the gates (`CompressModel.v`) | induction on the expression, C64 at each leaf |
| C110, C111 | GraphEvaluator::AddExpression with constant folding and sharing, Calculation, ValueSource, Construct of the custom gate, lookup and shuffle evaluators (`GraphModel.v`) | invariant: calculation k writes intermediate k and reads smaller ones, so any run ends in a solution of all equations |
| C112 | VerifyQuery, binding commitments (`FriSpec.v`) | induction on the commitments, reading positions 2i and 2i+1 |
| C113 | the same model | refuted: the opening of size 2^log_blowup stays in the list, by induction on the steps |
| C114 | CosetModel.v: constructor, GetNextPoint, CreateDisjointDomain, GetZpAtPoint, SplitDomains, GetSelectorsAtPoint, GetSelectorsOnCoset with its chunks | CosetProof.v: vanishing_zero of the domain proofs; the index set {c + 2^j i} is a permutation of seq; tiles of the parallel loops glue to one map |
| C115 | as C114 | refuted for every larger coset; example with the missing selectors |
| C116 | CosetModel.v interpolate_coset, chunk by chunk | CosetProof2.v: chunk sums glue to one sum, which is the Lagrange sum of the coset (basis_outside, basis_interpolates) |
| C117 | as C116 | refuted for every point of the coset |
| C118 | run_dit_layer, run_row_chunks, run_row_chunks_reversed, reverse_rows, fft_batch, ifft_batch (FFTModel) | state after s layers per column (tpos), half of the layers in natural and half in bit-reversed order; block-parallel loops by permutation; inverse by orthogonality |
| C119 | rescale, expand_with_zero_pad, coset_lde_batch | C118's core twice; bit-reversed zero padding; uniqueness of interpolants |
| C120 | coset_lde_batch_const | refuted with witness on GF(17); what it does return |
| C121 | fft_batch on a coset domain | refuted with witness; agreement for offset 1 |
| C122 | as C118 for k = 0 | refuted for every one-row matrix |
| C123 | PcsModel.v: Commit, ComputeInverseDenominators, the reduced openings of CreateOpeningProof, the verifier's callback | C119 for the extension, C116 for the values; the reduced vector of each height is the codeword of a quotient of low degree; then C61 |
| C124 | the same model | refuted: the verifier depends on a row of values only through its value at alpha |
| C125 | PcsModel.v, VerifyOpeningProof's callback; spec: `claimed_vectors` | the verifier's reduced openings are the entries of the claimed vectors, by induction over rounds and matrices; then C112 |
| C126 | FriModel.v | every vector is interpolated; folding folds the coefficients; two challenges with low foldings force the high coefficients to zero; induction over the layers |
| C127 | FriModel.v | refuted for every e, commitment scheme and challenger: the folded vectors are 0, e, 0, 0, ... |
| C128 | R1csModel.v, linear_combination.h | value lemma for the merge by induction on both lists; binary search by its invariant; dedup fused with std::unique |
| C129 | R1csModel.v, constraint_system.h; spec: `accepts`, `rows_hold` | invariant of the loop of TransformLCMap: counters equal the uses left, every combination still needed is present, with only concrete variables and the right value once the new witnesses have theirs |
| C130 | R1csModel.v | evaluation by induction on the index of the combination; then C129's invariant in prove mode |
| C131 | R1csModel.v | refuted with one constraint |
| C132 | R1csModel.v | refuted with a circuit that inlines one combination |
| C133 | R1csModel.v, `cached` | every entry of a reachable cache is the value of its combination, which later calls cannot change |
| C134 | QapModel.v; spec: `qap_polys`, `inner` | rows added with Lagrange weights = interpolant at x (C41's Lagrange coefficients), by linearity |
| C135 | QapModel.v | the transforms are evaluation and interpolation; on the coset the quotient is pointwise; degree by vanishing on the domain |
| C136 | spec only | a polynomial of degree at most 2n - 2 with 2n - 1 roots is zero; evaluate on the domain |
| C137 | QapModel.v | pointwise specification of base::Parallelize |
| C138 | R1csModel.v | the run in one mode simulates the run in the other: every component but the assignments is equal |
| C139 | QapModel.v | refuted with a domain of two points for two constraints |
| C140 | GrothModel.v over abstract groups and a bilinear map; R1csModel, QapModel, DomainModel below | the scalars of all elements are computed; the pairing equation is C135's identity at x |
| C141 | GrothModel.v; spec: `weighted` | bilinearity; moving terms across the equation in the target group |
| C142 | GrothModel.v | accepted at x iff the identity holds at x; count of roots (C136) |
| C143 | GrothModel.v | algebra in the target group |
| C144 | GrothModel.v | refuted by r1 = 0 |
| C145 | GrothModel.v | refuted by gamma = 0 |
| C146 | GrothModel.v; spec: `weights1`, `weights2`, `in_first`, `in_second` | coefficient extraction in alpha, beta, gamma, delta by the number of roots; then C136 |
| C147 | as C146 | weights of the honest prover with r = s = 0 |
| C148 | KzgModel.v over abstract groups; spec: `powers_at`, `set_up` | powers (C12), Lagrange coefficients (C41), multi-scalar multiplication as inner product |
| C149 | KzgModel.v | number of roots |
| C150 | KzgModel.v | prefix of the powers |
| C151 | KzgModel.v | refuted over F13 |
| C152 | KzgModel.v | refuted: forgery for every group, rejection over F13 |
| C153 | KzgModel.v; spec: `holds`, `fit`, `committed` | groups characterised; quotient by X - x is exact; the verifier's scalar is a sum of zeros |
| C154 | as C153 | the verifier's scalar as polynomial in u, tau and v; number of roots |
| C155 | KzgModel.v; spec: `orders`, `opened_at_most` | L vanishes at u because the points split into those of a group and the others |
| C156 | as C155; spec: `first_claim` | polynomial in tau at tau = u, then in u at every point, then in v and y; number of roots |
| C157 | KzgModel.v | refuted over F13 |
| C158 | KzgModel.v | one lemma about find-or-append by key, used for all three groupings; ordered sets |
| C159 | KzgModel.v | refuted over F13 |
| C160 | SumcheckModel.v; spec: `mlx`, `corner` | one pass halves the cube (`fixed`); induction over the point |
| C161 | SumcheckModel.v; spec: `values_for` | entry-wise; linearity of `mlx` |
| C162 | SumcheckModel.v | refuted for every shorter point |
| C163 | SumcheckModel.v | values at the corners |
| C164 | SumcheckModel.v | refuted over F13 |
| C165 | SumcheckModel.v; spec: `combination`, `cube_sum`, `max_factors` | invariant of AddTerm (every index resolves to its pointer); chunks tile the range |
| C166 | SumcheckModel.v; spec: `stands_for` | closed forms of the four loops give the Lagrange formula; number of roots |
| C167 | SumcheckModel.v | round message = partial sums at 0..d; induction over the rounds; C166 |
| C168 | SumcheckModel.v; spec: `tuples`, `messages`; game: `accepts` | induction over the rounds, counting challenges; number of roots |
| C169 | SumcheckModel.v | refuted over F13 |
| C170 | SumcheckModel.v | refuted for every verifier |
| C171 | SumcheckModel.v | refuted over F13 |
| C172 | SumcheckModel.v | refuted over F13 |
| C173 | SumcheckModel.v | refuted for every wrong size |
| C174 | PoseidonModel.v: Create, OptimizeARK, ComputeSparseMatrices, SparseMDSMatrix, Permute; matrices as functions, inverse() a parameter | invariants of the two loops: the state differs from the textbook state by a linear map fixing the first entry; matrix algebra over an abstract field |
| C175 | cauchy_mds | a kernel vector gives a rational function with too many zeros: interpolation argument for every submatrix |
| C176, C180 | permute, permute2 | injectivity of each round; Fermat for the S-box; trivial kernels |
| C177, C178 | external_apply, external_construct, internal_apply | sums by blocks of four; explicit adjugates of the two M4 |
| C179, C181 | p3_apply_mont, p3_apply_plain, from_u62 | interval bounds on the 64-bit sums, Montgomery reduction from SmallFieldProof; witness for C181 |
| C182 | p2config, p2_write, p2_read | witness |
| C183–C186 | SimdModel.v: vector instructions on lanes, the three instruction sets | each instruction by its definition on lanes; intervals for the signed Montgomery values (-p, p); low words of C and q p agree |
| C187, C188 | packed_inverse | batch inverse (C16); witness |
| C189 | packed_of_mont, packed_of_mersenne | conversion (C10); witness |
| C190–C192 | LogDerivModel.v: binary search, counters, log derivatives by chunks, prefix sums by chunks and serially, constraints at a row | invariant of the search; the counters of any order are the numbers of hits; the segment sums telescope; the weighted sum over the table equals the sum over the inputs |
| C193 | LogDerivModel.v; acceptance on all rows in LogDerivSpec.v | grand sum telescopes to a sum of fractions; grouped by distinct values; a nonzero polynomial with too many roots |
| C194, C195 | LogDerivModel.v: verifier | field identities; witnesses over F13 (refuted) |
| C196, C197 | LogDerivModel.v: shuffle prover and verifier | telescoping product; products of x + g determine the multiset (as C106) |
| C198 | LogDerivModel.v: the evaluator's loop | induction on the remaining arguments; every run with two or more ends outside the vector (refuted) |
| C199 | LogDerivModel.v: Horner compression | roots of the difference of two rows; counting over pairs of rows |
| C200, C201 | VanishingModel.v: graphs on cosets, permutation and lookup rows, division, pieces, verifier; VanishingSpec.v: rows, interpolation, satisfied | constraints as polynomials of bounded degree; a polynomial vanishing on the domain is a multiple of x^n - 1; the quotient is determined by its values on the coset; for soundness roots in x, then in y |
| C202, C203 | GetZeta on limbs, DistributePowersZeta, FFT on the extended domain, batch inversion by chunks | orders in the multiplicative group; C39, C40; powers modulo 3 |
| C204, C206, C209 | the same; partial Lagrange coefficients | graph evaluation (GraphExtra.v) at each point of each coset, interleaving of the parts; barycentric formula with wrap |
| C205 | ComputeInstanceEvalsVec | sum of values times Lagrange polynomials, shifted by the rotation |
| C207 | EvaluateH | direct from C204's form of the value |
| C208 | BuildExtendedCircuitColumnPSE with one gate | witness over GF(97) (refuted) |
| C210-C212, C221 | SqrtModel.v: Shanks, Tonelli-Shanks with fuel for its two loops, Legendre, the constants of the generator | invariant x^2 = a b with b of order 2^k, k < v; Fermat, a non-residue exists by counting roots; Euler's criterion |
| C213, C214 | GetYsFromX and CreateFromX over Z/p | roots of y^2 = c, parity of p - y; witness over GF(7) |
| C215, C216 | Decompose, GetRootOfUnity with a large subgroup, generated constants | orders of powers; uniqueness of adicities; Goldilocks: Lucas primality proof and computation |
| C217-C220 | PointSerModel.v: flags in the last byte, BigInt bytes, reduction of the value read | value of the bytes with the last one split off; all 256 bytes for the flag masks; witness with a 63-bit prime |
| C222, C223 | LayoutModel.v: allocations as sorted intervals, FreeIntervals, FirstFitRegion with its slack and its CHECKs as outcomes | induction over intervals; induction over columns: the slack of a space never grows |
| C224-C226, C233, C234 | SlotIn, SlotInBiggestAdviceFirst with any sort and any column order | allocations are the cells of the regions placed; the greedy placement is unique |
| C227 | V1 Synthesize: measuring, planning, replaying regions with absolute rows, placing constants | last write to a cell: regions are disjoint and constants go to free cells |
| C228 | SingleChipLayouter | invariant: every write is below the column's first free row |
| C229-C232, C235 | TableModel.v: AssignCell, AssignLookupTable, FillFromRow in the key and the prover pass; outcomes for failed CHECKs and empty optionals | invariant between values_ and the calls so far |
| C236-C238 | BinModel.v: the tables and the recursion over the half-width field, for every number of levels | abstract tower of quadratic extensions; irreducible because the traces of the generator and of its inverse are 1 at every level; tables checked entry by entry, the logarithm table by powers of its base |
| C239 | TwoInv | refuted: One + One is zero |
| C240-C248 | MvSparseModel.v: elements, literals, terms, Evaluate over any chunks, Compact, DoAdd, GetCoefficient; failed CHECKs and undefined behaviour are outcomes | value of a polynomial as specification; induction over the merge; counterexamples valid in every field |
| C249-C253 | ByModel.v: byinverter.h line by line, with wrapping words; the outer loop has fuel | values of chunk lists in two's complement (BySpec.v); loop invariant of Jump over the exact pair; congruences modulo the modulus and gcd as round invariants; termination by a lexicographic measure (larger absolute value, which of the two it is, delta, g) that every divstep decreases |
| C254-C261 | RngModel.v: xor_shift_rng.h, cha_cha20_rng.h, block_rng.h, rng.h, random_field_generator.h, prime_field_conversion.h, blinder.h, rotation.h; out-of-bounds reads are a distinct outcome; chacha_core is a parameter | recurrence and block inputs in RngSpec.v; induction over the number of draws; injectivity of the shift maps bit by bit; save and restore by the buffer theorems (C21); Montgomery reduction below modulus times R (C09) |
| C262-C265 | GrainModel.v: poseidon_grain_lfsr.h and the draws of poseidon_config.h:37-61; a failed CHECK, an exception and an index outside the array are a distinct outcome; loops without a bound have an allowance whose exhaustion is another | sequence, selection and integers in GrainSpec.v; the register holds 80 consecutive bits; polynomials over GF(2) acting on sequences for termination of GetBits; bits to integers by C06 |
| C266-C268 | PedersenModel.v: pedersen.h (CPU), batch mode of vector_commitment_scheme.h, pedersen.h and kzg.h as a state machine; groups abstract as in KzgModel.v, MSM by C50 | linear algebra over the group; induction over the list of calls with the invariant that each slot holds the last commitment for it |
| C269-C270 | WitnessModel.v: witness_collection.h, and the columns made from it in synthesizer.h (one circuit, one phase; commitments, blinds and challenges of the transcript left out) | induction over the calls; pointwise description of list updates |

The status of each property is in `MANIFEST.json`; seeded-bug experiments are logged in `seeded/LOG.jsonl`.
