{
 "claims": [
  {
   "property": "C01",
   "status": "proved",
   "theorems": [
    "C01_bigint_add_exact",
    "C01_bigint_sub_exact"
   ],
   "note": ""
  },
  {
   "property": "C02",
   "status": "proved",
   "theorems": [
    "C02_bigint_mul_extend_exact",
    "C02_bigint_mul_low_half"
   ],
   "note": ""
  },
  {
   "property": "C03",
   "status": "proved",
   "theorems": [
    "C03_bigint_divide_euclidean"
   ],
   "note": ""
  },
  {
   "property": "C04",
   "status": "proved",
   "theorems": [
    "C04_bigint_shift_left",
    "C04_bigint_shift_right",
    "C04_bigint_mul_by_2",
    "C04_bigint_div_by_2"
   ],
   "note": ""
  },
  {
   "property": "C05",
   "status": "proved",
   "theorems": [
    "C05_bigint_comparisons",
    "C05_bigint_equal_iff_same_limbs"
   ],
   "note": ""
  },
  {
   "property": "C06",
   "status": "proved",
   "theorems": [
    "C06_bigint_bits_roundtrip",
    "C06_bigint_from_bits",
    "C06_bigint_bytes_roundtrip",
    "C06_bigint_from_bytes_bounds"
   ],
   "note": ""
  },
  {
   "property": "C07",
   "status": "partial",
   "theorems": [
    "C07_to_naf_partial",
    "C07_to_naf_refuted",
    "C07_to_naf_all_ones_always_wrong"
   ],
   "note": "False of the code for the all-ones value (C07_to_naf_refuted: v+1 wraps and [-1] is returned); C07_to_naf_partial proves the full statement for every other value."
  },
  {
   "property": "C08",
   "status": "proved",
   "theorems": [
    "C08_montgomery_reduce",
    "C08_from_montgomery",
    "C08_modulus_inverse"
   ],
   "note": ""
  },
  {
   "property": "C09",
   "status": "proved",
   "theorems": [
    "C09_prime_field_ops",
    "C09_fast_and_slow_mul",
    "C09_of_bigint_roundtrip",
    "C09_to_bigint",
    "C09_comparisons",
    "C09_representation_unique"
   ],
   "note": ""
  },
  {
   "property": "C10",
   "status": "proved",
   "theorems": [
    "C10_montgomery32_ops",
    "C10_montgomery32_conversions",
    "C10_montgomery32_pow",
    "C10_montgomery32_inverse"
   ],
   "note": "Proved for every odd modulus with 2 < p < 2^31; Inverse assumes p prime (shown for BabyBear and KoalaBear). The packed SIMD variants are not modelled."
  },
  {
   "property": "C11",
   "status": "proved",
   "theorems": [
    "C11_mersenne31_reduce",
    "C11_mersenne31_ops",
    "C11_mersenne31_inverse"
   ],
   "note": "Primality of 2^31-1 is proved in Coq by Pocklington's criterion, so the inverse theorem has no hypothesis beyond canonical input."
  },
  {
   "property": "C12",
   "status": "proved",
   "theorems": [
    "C12_montgomery_inverse",
    "C12_prime_field_montgomery_inverse"
   ],
   "note": "Termination included: the outer loop needs at most 128 N iterations. PrimeField::Inverse itself uses BYInverter, which is a separate property."
  },
  {
   "property": "C13",
   "status": "partial",
   "theorems": [
    "C13_portable_u64_sub_with_borrow_refuted",
    "C13_portable_u64_borrow_is_inverted",
    "C13_portable_u32_sub_with_borrow_partial"
   ],
   "note": "The code violates this property: C13_portable_u64_sub_with_borrow_refuted gives a witness and C13_portable_u64_borrow_is_inverted shows the reported borrow is always the complement of the true one. The 32-bit sibling is proved correct."
  },
  {
   "property": "C14",
   "status": "proved",
   "theorems": [
    "C14_pow",
    "C14_const_pow",
    "C14_exp_pow_of_two",
    "C14_pow_with_table",
    "C14_linear_combination",
    "C14_linear_combination_in_place",
    "C14_multi_scalar_mul"
   ],
   "note": "Holds in every monoid with a correct squaring, for exponents of any limb count. Also covers ConstPow/ConstScalarMul, ExpPowOfTwo and LinearCombination(InPlace)."
  },
  {
   "property": "C15",
   "status": "partial",
   "theorems": [
    "C15_successive_powers",
    "C15_successive_scalar_muls",
    "C15_bit_reversed_partial",
    "C15_bit_reversed_size_one_refuted"
   ],
   "note": "Plain powers and scalar multiples are proved for every thread count. The bit-reversed variants are proved for sizes 2^k with k>0 and any order of the parallel writes; for size 1 the code shifts a 64-bit word by 64 (undefined), see the _refuted theorem."
  },
  {
   "property": "C16",
   "status": "partial",
   "theorems": [
    "C16_batch_inverse_partial",
    "C16_batch_inverse_many_threads_refuted",
    "C16_batch_inverse_serial",
    "C16_size_mismatch"
   ],
   "note": "Proved for fewer than 128 threads; with 128 or more the code evaluates size_t{1} << (threads/2) with a shift of 64 or more, which is undefined (C16_batch_inverse_many_threads_refuted)."
  },
  {
   "property": "C17",
   "status": "partial",
   "theorems": [
    "C17_operations",
    "C17_in_place",
    "C17_inverse",
    "C17_division",
    "C17_equality",
    "C17_is_zero",
    "C17_is_one_partial",
    "C17_is_minus_one_partial",
    "C17_is_one_refuted",
    "C17_is_minus_one_refuted",
    "C17_order_refuted",
    "C17_batch_evaluate_partial",
    "C17_batch_evaluate_coeff_refuted"
   ],
   "note": "Ring operations, inverse, division, equality and IsZero are proved. The code violates the rest: IsOne/IsMinusOne accept any denominator when the numerator is (minus) one, BatchEvaluate ignores its coefficient and maps zero denominators to zero, and operator< is not a function of the values."
  },
  {
   "property": "C18",
   "status": "proved",
   "theorems": [
    "C18_chunks_partition",
    "C18_parallelize_partition",
    "C18_any_schedule",
    "C18_parallel_map",
    "C18_no_out_of_bounds",
    "C18_map_by_chunk",
    "C18_fill"
   ],
   "note": "Callbacks are modelled as sequences of steps on the span they receive; interleavings are arbitrary, memory is sequentially consistent. Sizes are bounded so that size_t sums do not wrap (2*size + threads < 2^64). Observation: GetNumElementsPerThread drops its threshold argument (modelled as is)."
  },
  {
   "property": "C19",
   "status": "partial",
   "theorems": [
    "C19_resize",
    "C19_resize_value_partial",
    "C19_resize_value_shrink_fails",
    "C19_resize_value_refuted"
   ],
   "note": "False for shrinking with a fill value (C19_resize_value_refuted, C19_resize_value_shrink_fails: size_t underflow in last(size - old_size)); proved for the overload without value and for every non-shrinking call with a value."
  },
  {
   "property": "C20",
   "status": "proved",
   "theorems": [
    "C20_write_int_layout",
    "C20_int_roundtrip"
   ],
   "note": "Integers only, on a little-endian host (Native is Little). float/double endian writes convert the value to an integer and are not covered."
  },
  {
   "property": "C21",
   "status": "partial",
   "theorems": [
    "C21_composite_layout_partial",
    "C21_composite_roundtrip_partial",
    "C21_decode_partial",
    "C21_estimate_size_partial",
    "C21_wide_string_refuted",
    "C21_estimate_size_refuted"
   ],
   "note": "Round trip, layout, failure and EstimateSize are proved for every nesting of integers, one-byte-character strings, vectors, fixed arrays, structs and matrices. The code violates the rest: strings of wider characters are truncated (C21_wide_string_refuted), and EstimateSize of arrays above 2^31 bytes wraps an int (C21_estimate_size_refuted). EstimateSize of a matrix assumes elements of fixed size."
  },
  {
   "property": "C22",
   "status": "partial",
   "theorems": [
    "C22_read_bytes",
    "C22_write_bytes",
    "C22_read_ptr_partial",
    "C22_read_ptr_refuted",
    "C22_failed_composite_write_refuted"
   ],
   "note": "Byte and integer accesses are proved exact, including overflow of offset+n. The code violates the rest: ReadPtrAt multiplies without an overflow check, and a composite write that fails half-way has already changed the buffer."
  },
  {
   "property": "C23",
   "status": "partial",
   "theorems": [
    "C23_write_many",
    "C23_write_many_at_single_partial",
    "C23_write_many_at_refuted"
   ],
   "note": "Write(a, b, ...) at the cursor is proved. WriteManyAt passes the same offset to every argument (C23_write_many_at_refuted); only its one-argument case is right. ReadManyAt cannot be instantiated (its one-argument overload has an undeducible parameter) and is not modelled."
  },
  {
   "property": "C24",
   "status": "proved",
   "theorems": [
    "C24_history",
    "C24_returned_iterators",
    "C24_capacity"
   ],
   "note": "Any legal program over any number of deques and any element type: no access outside a ring, no leak or double destruction, contents/size/at/front/back/forward and reverse iteration equal the list model; returned iterators and capacity too."
  },
  {
   "property": "C25",
   "status": "partial",
   "theorems": [
    "C25_contains",
    "C25_intersect",
    "C25_count_counts",
    "C25_is_empty_partial",
    "C25_is_empty_refuted",
    "C25_get_size_partial",
    "C25_get_size_half_open_unsigned",
    "C25_get_size_refuted",
    "C25_get_size_overflow_refuted",
    "C25_iteration_partial",
    "C25_iteration_refuted",
    "C25_iteration_empty_refuted"
   ],
   "note": "Contains and Intersect are proved for all ranges; IsEmpty, GetSize and iteration are proved under the stated conditions and refuted outside them: IsEmpty for open ranges (3,4), GetSize of inclusive full ranges (wraps to 0) and of wide signed ranges (signed overflow), iteration of inclusive ranges ending at the maximum."
  },
  {
   "property": "C26",
   "status": "proved",
   "theorems": [
    "C26_linear",
    "C26_mul",
    "C26_square",
    "C26_norm",
    "C26_inverse",
    "C26_is_a_field"
   ],
   "note": ""
  },
  {
   "property": "C27",
   "status": "proved",
   "theorems": [
    "C27_linear",
    "C27_mul",
    "C27_square",
    "C27_inverse",
    "C27_is_a_field"
   ],
   "note": ""
  },
  {
   "property": "C28",
   "status": "proved",
   "theorems": [
    "C28_mul_square",
    "C28_inverse",
    "C28_norm"
   ],
   "note": ""
  },
  {
   "property": "C29",
   "status": "partial",
   "theorems": [
    "C29_self_mul_partial",
    "C29_quadratic_tower_self_mul",
    "C29_self_mul_refuted",
    "C29_mul_by_own_coefficient_refuted"
   ],
   "note": "Cubic and quartic types tolerate x *= x, as does a quadratic type over a prime field; a quadratic type over an extension field does not (C29_self_mul_refuted), and neither does multiplication by a reference to one's own coefficient. C29_quadratic_tower_self_mul gives the exact set of operands for which it is right."
  },
  {
   "property": "C30",
   "status": "proved",
   "theorems": [
    "C30_sparse_fp6",
    "C30_sparse_fp12",
    "C30_sparse_fp6_quadratic"
   ],
   "note": ""
  },
  {
   "property": "C31",
   "status": "proved",
   "theorems": [
    "C31_cyclotomic_square",
    "C31_cyclotomic_inverse"
   ],
   "note": ""
  },
  {
   "property": "C32",
   "status": "proved",
   "theorems": [
    "C32_dense_linear",
    "C32_dense_mul",
    "C32_equality",
    "C32_dense_sparse"
   ],
   "note": ""
  },
  {
   "property": "C33",
   "status": "proved",
   "theorems": [
    "C33_division",
    "C33_division_sparse_divisor",
    "C33_division_sparse_dividend"
   ],
   "note": ""
  },
  {
   "property": "C34",
   "status": "proved",
   "theorems": [
    "C34_dense_evaluate",
    "C34_evaluate_products"
   ],
   "note": ""
  },
  {
   "property": "C35",
   "status": "proved",
   "theorems": [
    "C35_sparse_ring",
    "C35_lookup_and_conversion",
    "C35_equality"
   ],
   "note": ""
  },
  {
   "property": "C36",
   "status": "proved",
   "theorems": [
    "C36_sparse_evaluate",
    "C36_sparse_is_dense_value"
   ],
   "note": ""
  },
  {
   "property": "C37",
   "status": "proved",
   "theorems": [
    "C37_from_roots",
    "C37_vanishing",
    "C37_lagrange"
   ],
   "note": ""
  },
  {
   "property": "C38",
   "status": "proved",
   "theorems": [
    "C38_dense_fold",
    "C38_sparse_fold"
   ],
   "note": ""
  },
  {
   "property": "C39",
   "status": "proved",
   "theorems": [
    "C39_create",
    "C39_elements",
    "C39_fft",
    "C39_tables"
   ],
   "note": "Radix-2 FFT, Create, GetCoset, GetElements and the twiddle tables; the CUDA branch is not modelled."
  },
  {
   "property": "C40",
   "status": "proved",
   "theorems": [
    "C40_ifft",
    "C40_round_trips"
   ],
   "note": ""
  },
  {
   "property": "C41",
   "status": "proved",
   "theorems": [
    "C41_lagrange"
   ],
   "note": "Threads up to 127: BatchInverse fails beyond (C16)."
  },
  {
   "property": "C42",
   "status": "proved",
   "theorems": [
    "C42_vanishing",
    "C42_filter"
   ],
   "note": ""
  },
  {
   "property": "C43",
   "status": "partial",
   "theorems": [
    "C43_power_of_two_partial",
    "C43_refuted"
   ],
   "note": "Refuted for sizes with a factor q (SerialFFT reads a[k+j] through a reference after overwriting it); proved for the sizes 2^a, serial and parallel, any number of threads and any schedule."
  },
  {
   "property": "C44",
   "status": "partial",
   "theorems": [
    "C44_twiddle_cache_partial",
    "C44_twiddle_cache_refuted"
   ],
   "note": "A full request after a packed-only one returns incomplete tables (for every domain of at least 4 elements); every other history is answered completely."
  },
  {
   "property": "C45",
   "status": "proved",
   "theorems": [
    "C45_add_sub",
    "C45_mul",
    "C45_scale_negate",
    "C45_div",
    "C45_div_scalar",
    "C45_equality"
   ],
   "note": "Every pure and in-place operation; aborts on mismatched sizes are part of the theorems."
  },
  {
   "property": "C46",
   "status": "proved",
   "theorems": [
    "C46_specification_sanity",
    "C46_group_law",
    "C46_double",
    "C46_add",
    "C46_add_affine",
    "C46_affine_operands",
    "C46_equality_negation_identity"
   ],
   "note": "Curves with a = 0, or different operands on any curve. Doubling with a != 0 is C84. Characteristic other than 2; the base field is abstract."
  },
  {
   "property": "C47",
   "status": "proved",
   "theorems": [
    "C47_double",
    "C47_add",
    "C47_add_affine",
    "C47_equality_negation_identity"
   ],
   "note": "Every curve."
  },
  {
   "property": "C48",
   "status": "proved",
   "theorems": [
    "C48_double",
    "C48_add",
    "C48_add_affine",
    "C48_equality_negation_identity"
   ],
   "note": "Every curve; zz^3 = zzz^2 is an invariant proved of every constructor and operation."
  },
  {
   "property": "C49",
   "status": "proved",
   "theorems": [
    "C49_from_affine",
    "C49_between",
    "C49_to_affine",
    "C49_batch_normalize",
    "C49_batch_sizes"
   ],
   "note": "From affine, Jacobian, projective; conversions out of XYZZ are C85. To affine needs b != 0 (C87). The shift by threads/2 is undefined from 128 threads on (as in C19)."
  },
  {
   "property": "C50",
   "status": "proved",
   "theorems": [
    "C50_pippenger",
    "C50_adapter",
    "C50_size_mismatch",
    "C50_on_curve",
    "C50_point_types"
   ],
   "note": "Generic over commutative groups; instances for affine/XYZZ, projective, XYZZ and (a = 0) Jacobian points on non-singular curves. Window size choice (floating point in msm_ctx.h) is universally quantified. The icicle GPU path is not modelled."
  },
  {
   "property": "C51",
   "status": "proved",
   "theorems": [
    "C51_fixed_base",
    "C51_on_curve"
   ],
   "note": "UpdateWindowTable, ScalarMul, Run and RunSerial; any schedule of the parallel loop."
  },
  {
   "property": "C52",
   "status": "proved",
   "theorems": [
    "C52_decompose",
    "C52_decompose_any",
    "C52_bounds"
   ],
   "note": "All four GLV configurations in BUILD.bazel; bounds also for any rows with determinant r."
  },
  {
   "property": "C53",
   "status": "proved",
   "theorems": [
    "C53_honest_openings_verify",
    "C53_rejects"
   ],
   "note": "Commit, storage layout, subtree split, opening creation and verification; any loop order."
  },
  {
   "property": "C54",
   "status": "proved",
   "theorems": [
    "C54_binding"
   ],
   "note": "find_collision computes the collision from the two proofs."
  },
  {
   "property": "C55",
   "status": "proved",
   "theorems": [
    "C55_honest_openings_verify",
    "C55_power_of_two_heights"
   ],
   "note": "Commit, open and verify round trip over abstract hash, compression and coordinate maps; packed (SIMD) hashing is assumed lane-wise equal to the scalar one; powersort is modelled by its contract (stable sort)."
  },
  {
   "property": "C56",
   "status": "proved",
   "theorems": [
    "C56_binding"
   ],
   "note": "The collision is between calls at the same position of the two verifications."
  },
  {
   "property": "C57",
   "status": "proved",
   "theorems": [
    "C57_absorb_elementwise",
    "C57_absorb_split"
   ],
   "note": "Every permutation, rate >= 1, state and input. The second part must be non-empty: see C94."
  },
  {
   "property": "C58",
   "status": "proved",
   "theorems": [
    "C58_squeeze_elementwise",
    "C58_squeeze_split"
   ],
   "note": "Proved under the exact side condition that no request made mid-block asks for exactly kRate elements; the excluded case is C97."
  },
  {
   "property": "C59",
   "status": "proved",
   "theorems": [
    "C59_every_history_defined",
    "C59_challenges"
   ],
   "note": "Every permutation of W lanes, rate 1 <= R <= W, valid challenger and transcript."
  },
  {
   "property": "C60",
   "status": "proved",
   "theorems": [
    "C60_grind_every_schedule",
    "C60_duplex_check_defined"
   ],
   "note": "Interleaving semantics over the shared atomic flag, every number of threads and range below 2^32; termination bound and progress included. The overload with a preset witness is not modelled."
  },
  {
   "property": "C61",
   "status": "proved",
   "theorems": [
    "C61_fold",
    "C61_rows",
    "C61_completeness"
   ],
   "note": "FoldMatrix folds the polynomial, FoldRow folds the same row, and Prove then Verify accepts for every complete commitment scheme and every challenger; inputs larger than the blowup (C113 is the boundary) and log_blowup >= 1 (ReverseBitsLen(_, 0) is an undefined shift)."
  },
  {
   "property": "C62",
   "status": "proved",
   "theorems": [
    "C62_store_is_union_find",
    "C62_copy_constraints"
   ],
   "note": "MergeCycle, CheckSameCycle, GetNextLabel, GetCycleSize over every history of merges of cells of the grid; swap of the mapping of two cells joins exactly their two cycles."
  },
  {
   "property": "C63",
   "status": "proved",
   "theorems": [
    "C63_permute_expression_pair"
   ],
   "note": "Sort is any sorting function and operator< any strict total order; the generator is any sequence."
  },
  {
   "property": "C64",
   "status": "proved",
   "theorems": [
    "C64_compression_selects",
    "C64_compression_total"
   ],
   "note": "Full statement. The characteristic must exceed the number of selectors, as documented in the source."
  },
  {
   "property": "C65",
   "status": "partial",
   "theorems": [
    "C65_degree_bound_refuted",
    "C65_degree_bound_partial"
   ],
   "note": "Refuted by a constraint system with gates s0*a and s1*a*a: the compressed second gate has degree 4, above the limit 3, because CombineSimpleSelectors compares the degree of the outer selector instead of the candidate's. The partial theorem covers selectors in order of non-increasing degree."
  },
  {
   "property": "C66",
   "status": "partial",
   "theorems": [
    "C66_is_power_of_two",
    "C66_align_down",
    "C66_align_up",
    "C66_log2_floor",
    "C66_log2_ceiling",
    "C66_log2_zero",
    "C66_checked_log2",
    "C66_reverse_bits_partial",
    "C66_reverse_zero_bits_refuted"
   ],
   "note": "ReverseBitsLen with bit_len 0 shifts by 64 and is undefined in the code; everything else is proved for all inputs. CountLeadingZeroBits/CountTrailingZeroBits are modelled by the defining loops of the compiler builtins."
  },
  {
   "property": "C67",
   "status": "proved",
   "theorems": [
    "C67_egcd",
    "C67_small_field_inverse"
   ],
   "note": ""
  },
  {
   "property": "C68",
   "status": "partial",
   "theorems": [
    "C68_small_field_ops_partial",
    "C68_default_reduction_refuted",
    "C68_default_reduction_partial",
    "C68_large_modulus_add_refuted"
   ],
   "note": "Refuted: the default Reduce(uint64_t) subtracts the modulus once, so products are wrong unless the BUILD rule supplies reduce64 (witness GF(7): 5*6 = 23); for moduli between 2^31 and 2^32 AddMod wraps. Proved: correct for every p < 2^31 and every reduction that is right on products."
  },
  {
   "property": "C69",
   "status": "partial",
   "theorems": [
    "C69_push_back_own_element_partial",
    "C69_push_back_own_element_refuted"
   ],
   "note": "Proved while the deque has spare capacity; false when the push reallocates: the argument is read from the freed buffer (C69_push_back_own_element_refuted)."
  },
  {
   "property": "C70",
   "status": "proved",
   "theorems": [
    "C70_frobenius_fp2",
    "C70_frobenius_fp3",
    "C70_frobenius_fp4",
    "C70_frobenius_fp4_quartic",
    "C70_frobenius_fp6_cubic",
    "C70_frobenius_fp6_quadratic",
    "C70_frobenius_fp12",
    "C70_frobenius_period"
   ],
   "note": ""
  },
  {
   "property": "C71",
   "status": "partial",
   "theorems": [
    "C71_cyclotomic_pow_partial",
    "C71_cyclotomic_pow_all_ones",
    "C71_cyclotomic_pow_refuted"
   ],
   "note": "Proved for every exponent except the all-ones one, for which the code returns the inverse (ToNAF overflows): C71_cyclotomic_pow_refuted."
  },
  {
   "property": "C72",
   "status": "proved",
   "theorems": [
    "C72_generated_multiplication",
    "C72_overrides"
   ],
   "note": ""
  },
  {
   "property": "C73",
   "status": "partial",
   "theorems": [
    "C73_minus_one_flag_partial",
    "C73_minus_one_flag_refuted"
   ],
   "note": "True for prime-field non-residues; the generator looks at the first coefficient only, so -1+2u sets the flag and squaring is wrong."
  },
  {
   "property": "C74",
   "status": "partial",
   "theorems": [
    "C74_frobenius_fp4_refuted"
   ],
   "note": "False whenever the base non-residue is -1 and z is not in Fp: the Frobenius table is built from the base non-residue. The case z = u with p = 1 mod 4 is C70_frobenius_fp4."
  },
  {
   "property": "C75",
   "status": "partial",
   "theorems": [
    "C75_zero_dividend_refuted",
    "C75_sparse_zero_by_zero_refuted",
    "C75_zero_dividend_quotient_partial"
   ],
   "note": "False for every divisor: the code returns {0, divisor} (C75_zero_dividend_refuted), and sparse 0/0 yields a quotient. Only the quotient of a zero dividend is right (C75_zero_dividend_quotient_partial)."
  },
  {
   "property": "C76",
   "status": "partial",
   "theorems": [
    "C76_sparse_evaluate_high_degree",
    "C76_sparse_evaluate_refuted"
   ],
   "note": "False: exponents are reduced modulo p instead of p-1 (x^7 over GF(7) at 3). C76_sparse_evaluate_high_degree gives the value computed."
  },
  {
   "property": "C77",
   "status": "partial",
   "theorems": [
    "C77_lagrange_duplicates_refuted",
    "C77_lagrange_empty_refuted"
   ],
   "note": "False: duplicates go unnoticed because the batch inverse skips the zero denominators; no points is undefined behaviour."
  },
  {
   "property": "C78",
   "status": "partial",
   "theorems": [
    "C78_dense_fold_odd_refuted"
   ],
   "note": "False for every odd length: reads one element past the end."
  },
  {
   "property": "C79",
   "status": "partial",
   "theorems": [
    "C79_filter_cosets_partial",
    "C79_filter_cosets_refuted"
   ],
   "note": "Exact values proved for all cosets; the claim is false: factors h^n and h'^n' are missing."
  },
  {
   "property": "C80",
   "status": "partial",
   "theorems": [
    "C80_equality_partial",
    "C80_equality_refuted"
   ],
   "note": "Refuted: [0] == [] == [0,0] but [0] != [0,0]. Reflexivity, symmetry and transitivity through non-empty vectors are proved."
  },
  {
   "property": "C81",
   "status": "proved",
   "theorems": [
    "C81_adicity"
   ],
   "note": ""
  },
  {
   "property": "C82",
   "status": "partial",
   "theorems": [
    "C82_trace_partial",
    "C82_trace_refuted"
   ],
   "note": "Refuted: 0 instead of 1 when n is a power of k. The theorem says what is returned in every case."
  },
  {
   "property": "C83",
   "status": "partial",
   "theorems": [
    "C83_max_degree_partial",
    "C83_max_degree_refuted"
   ],
   "note": "Refuted: the loop counter shadows the accumulator, the small subgroup never counts."
  },
  {
   "property": "C84",
   "status": "partial",
   "theorems": [
    "C84_double_partial",
    "C84_double_refuted"
   ],
   "note": "Refuted: DoDoubleImpl computes z3 = 2(Y+Z) where 2YZ is needed when a != 0. The partial theorem: correct when Y+Z = YZ happens to hold."
  },
  {
   "property": "C85",
   "status": "partial",
   "theorems": [
    "C85_from_xyzz_partial",
    "C85_batch_normalize",
    "C85_from_xyzz_wrong_sign",
    "C85_from_xyzz_refuted"
   ],
   "note": "Refuted: zz == 1 is taken to mean z = 1, but zzz may be -1; the result is then the opposite point (proved in general, and reached by one mixed addition on the GF(7) test curve). Partial: correct unless zz = 1 and zzz != 1."
  },
  {
   "property": "C86",
   "status": "proved",
   "theorems": [
    "C86_is_on_curve",
    "C86_affine_equality_negation"
   ],
   "note": "Infinity is rejected by IsOnCurve."
  },
  {
   "property": "C87",
   "status": "partial",
   "theorems": [
    "C87_affine_form_partial",
    "C87_affine_form_refuted"
   ],
   "note": "Refuted for b = 0: (0,0) is then a curve point but encodes infinity. Proved for b != 0."
  },
  {
   "property": "C88",
   "status": "partial",
   "theorems": [
    "C88_glv_mul_partial",
    "C88_glv_mul_value",
    "C88_on_curve_partial",
    "C88_glv_mul_refuted"
   ],
   "note": "Partial: correct when the limb counts agree or k2 = 0; refuted in general with BN254 G1's constants."
  },
  {
   "property": "C89",
   "status": "partial",
   "theorems": [
    "C89_thread_limit_partial",
    "C89_thread_limit_window_and_term",
    "C89_thread_limit_refuted"
   ],
   "note": "Partial: refuted for kParallelWindowAndTerm."
  },
  {
   "property": "C90",
   "status": "partial",
   "theorems": [
    "C90_single_leaf_refuted",
    "C90_threshold_one_refuted"
   ],
   "note": "Refuted twice: a single leaf is accepted and BuildTree then reads past the end of the tree; with leaves_size_for_parallelization = 1 the subtree loop reads past the end. C53 proves the remaining cases correct."
  },
  {
   "property": "C91",
   "status": "partial",
   "theorems": [
    "C91_padded_rows_refuted"
   ],
   "note": "Refuted: heights 8 and 3 are accepted, but opening index 7 reads row 3 of the three-row matrix. C55 gives the exact condition under which openings are defined."
  },
  {
   "property": "C92",
   "status": "partial",
   "theorems": [
    "C92_widths_unchecked_refuted",
    "C92_short_proof_refuted"
   ],
   "note": "Refuted: [a,b],[c] and [a],[b,c] are interchangeable in one layer, and an empty proof lets the second matrix of a commitment hash(row) be opened to anything. C56 gives the shape conditions under which binding holds."
  },
  {
   "property": "C93",
   "status": "partial",
   "theorems": [
    "C93_same_class_refuted"
   ],
   "note": "Refuted for builds without DCHECK: heights 4 and 3 are accepted and the 3-row matrix never enters the tree."
  },
  {
   "property": "C94",
   "status": "partial",
   "theorems": [
    "C94_absorb_empty_refuted"
   ],
   "note": "Refuted: after a full block, Absorb of nothing runs the permutation, and the next squeeze differs."
  },
  {
   "property": "C95",
   "status": "proved",
   "theorems": [
    "C95_padding_free_total",
    "C95_padding_free_binding"
   ],
   "note": "For every length-preserving permutation (injective for the second theorem), every rate and width."
  },
  {
   "property": "C96",
   "status": "partial",
   "theorems": [
    "C96_different_lengths_refuted"
   ],
   "note": "Refuted for every permutation: Hash [a] = Hash [a; 0] when the rate is at least 2. Inherent in the design (callers fix the length); recorded as a finding."
  },
  {
   "property": "C97",
   "status": "partial",
   "theorems": [
    "C97_full_block_repeats_refuted"
   ],
   "note": "Refuted for every permutation: SqueezeInternal tests output_remaining_size != kRate instead of output_remaining_size != kRate - start, so squeezing 1 and then 2 with rate 2 gives x0, x1, x0."
  },
  {
   "property": "C98",
   "status": "partial",
   "theorems": [
    "C98_zero_padding_refuted"
   ],
   "note": "Refuted for every permutation: the rate part is overwritten, not added with padding, so a trailing zero is invisible in the initial state. Inherent in the overwrite-mode design (same as the reference design it follows); recorded as a finding."
  },
  {
   "property": "C99",
   "status": "proved",
   "theorems": [
    "C99_hash_challenges"
   ],
   "note": "Every hash with fixed output length N >= 1."
  },
  {
   "property": "C100",
   "status": "proved",
   "theorems": [
    "C100_multi_every_history_defined",
    "C100_multi_challenges",
    "C100_reduce_injective"
   ],
   "note": "Montgomery small fields; the remainder modulo the big modulus is the mathematical one."
  },
  {
   "property": "C101",
   "status": "partial",
   "theorems": [
    "C101_split_plain_refuted"
   ],
   "note": "Refuted: line 64 constructs the element from the low 32 bits without reduction (a DCHECK in debug builds)."
  },
  {
   "property": "C102",
   "status": "partial",
   "theorems": [
    "C102_all_labels_refuted",
    "C102_all_labels_repeats_base_partial"
   ],
   "note": "Refuted: the base is pushed before the loop and again when the loop comes back to it."
  },
  {
   "property": "C103",
   "status": "partial",
   "theorems": [
    "C103_copy_checks_rows_refuted"
   ],
   "note": "Refuted: CHECK_LE where CHECK_LT is needed."
  },
  {
   "property": "C104",
   "status": "proved",
   "theorems": [
    "C104_permutation_columns"
   ],
   "note": "GetSuccessivePowers (C15) supplies the first column; the special constant delta of bn254::Fr is not modelled."
  },
  {
   "property": "C105",
   "status": "proved",
   "theorems": [
    "C105_lookup_completeness"
   ],
   "note": "Row indicator polynomials are modelled by their values on the domain; compression of the expressions by theta is outside the model."
  },
  {
   "property": "C106",
   "status": "proved",
   "theorems": [
    "C106_lookup_identity",
    "C106_lookup_soundness"
   ],
   "note": "On the rows of the domain; the random evaluation point and the polynomial commitment are outside this theorem."
  },
  {
   "property": "C107",
   "status": "proved",
   "theorems": [
    "C107_permutation_completeness"
   ],
   "note": "Same scope as C105; Parallelize with any number of threads."
  },
  {
   "property": "C108",
   "status": "proved",
   "theorems": [
    "C108_permutation_soundness"
   ],
   "note": "Same scope as C106."
  },
  {
   "property": "C109",
   "status": "proved",
   "theorems": [
    "C109_compressed_gates_agree"
   ],
   "note": "Gates only: lookups and shuffles go through the same ReplaceSelectors and are not modelled here."
  },
  {
   "property": "C110",
   "status": "proved",
   "theorems": [
    "C110_gate_graph_value"
   ],
   "note": "Rotation scale 1 and at most 2^30 rows, which is how the Scroll builder runs it. Rotations within [-2^30, 2^30)."
  },
  {
   "property": "C111",
   "status": "proved",
   "theorems": [
    "C111_lookup_graph_value",
    "C111_shifted_graph_value"
   ],
   "note": "Same limits as C110."
  },
  {
   "property": "C112",
   "status": "proved",
   "theorems": [
    "C112_binding",
    "C112_accepted"
   ],
   "note": "Soundness of the query phase relative to binding commitments, for all indices; the proximity-gap statement for a random subset of indices is not attempted."
  },
  {
   "property": "C113",
   "status": "partial",
   "theorems": [
    "C113_single_row_refuted"
   ],
   "note": "False: VerifyQuery stops before it consumes the reduced opening of that size and aborts in CHECK_EQ(ro_idx, ro_size), for every proof."
  },
  {
   "property": "C114",
   "status": "proved",
   "theorems": [
    "C114_constructor",
    "C114_points",
    "C114_split",
    "C114_disjoint",
    "C114_selectors",
    "C114_selectors_on_coset"
   ],
   "note": "Base and extension field are one field in the model. The parallel loops are modelled chunk by chunk."
  },
  {
   "property": "C115",
   "status": "partial",
   "theorems": [
    "C115_larger_coset_refuted"
   ],
   "note": "False of the code: CHECK_GE(coset.log_n, ...) is written the other way round, so every larger coset aborts; C115_larger_coset_refuted."
  },
  {
   "property": "C116",
   "status": "proved",
   "theorems": [
    "C116_interpolate"
   ],
   "note": "Base and extension field are one field in the model."
  },
  {
   "property": "C117",
   "status": "partial",
   "theorems": [
    "C117_point_of_the_coset_refuted"
   ],
   "note": "False of the code: the batch inversion leaves the zero difference zero and the common factor is zero, so all columns come out zero; C117_point_of_the_coset_refuted."
  },
  {
   "property": "C118",
   "status": "proved",
   "theorems": [
    "C118_forward",
    "C118_inverse",
    "C118_wrong_size"
   ],
   "note": "Sizes 2^k with k > 0 (the one-row case is C122); small fields, where these functions exist. Packed lanes are modelled elementwise."
  },
  {
   "property": "C119",
   "status": "proved",
   "theorems": [
    "C119_extension",
    "C119_interpolants",
    "C119_wrong_size"
   ],
   "note": "Full statement for both row orders, any schedule and thread count; existence of the column interpolants proved beside it."
  },
  {
   "property": "C120",
   "status": "partial",
   "theorems": [
    "C120_const_overload_refuted",
    "C120_const_overload_partial"
   ],
   "note": "Refuted: the const overload drops reverse_at_last and always returns natural order; the partial theorem says what it returns."
  },
  {
   "property": "C121",
   "status": "partial",
   "theorems": [
    "C121_batch_on_coset_refuted",
    "C121_batch_on_subgroup_partial"
   ],
   "note": "Refuted: FFTBatch ignores the coset offset; on a domain without offset it agrees with FFT column by column (partial)."
  },
  {
   "property": "C122",
   "status": "partial",
   "theorems": [
    "C122_one_row_refuted"
   ],
   "note": "Refuted: the twiddle tables of the size-one domain are empty and the CHECK on them aborts."
  },
  {
   "property": "C123",
   "status": "proved",
   "theorems": [
    "C123_completeness",
    "C123_completeness_with_merkle_trees"
   ],
   "note": "Matrices of one row are excluded (C113 and C122 show that they fail). ExtF and F are one field in the model; the matrix commitment schemes and the challenger are arbitrary."
  },
  {
   "property": "C124",
   "status": "partial",
   "theorems": [
    "C124_values_not_bound_refuted"
   ],
   "note": "Refuted for every run of the verifier: opened values enter only through their combination by powers of alpha, which is sampled before they exist and they are never observed, so any value can be replaced and compensated in the next column. The caller has to observe the values before, which the API cannot enforce."
  },
  {
   "property": "C125",
   "status": "proved",
   "theorems": [
    "C125_binding",
    "C125_accepted"
   ],
   "note": "All positions accepted; commitments assumed binding. What FRI's acceptance then says about the vectors is C126 (one height) and C127 (several)."
  },
  {
   "property": "C126",
   "status": "proved",
   "theorems": [
    "C126_soundness"
   ],
   "note": "All positions accepted; commitments assumed binding. The probability argument over sampled positions is not modelled."
  },
  {
   "property": "C127",
   "status": "partial",
   "theorems": [
    "C127_mixed_sizes_refuted"
   ],
   "note": "Refuted: a smaller input is added to the folded vector with no random factor. For every vector e, the inputs (e with each entry doubled, -e) cancel after one folding for every challenge, so the honest prover's proof is accepted although neither input is of low degree."
  },
  {
   "property": "C128",
   "status": "proved",
   "theorems": [
    "C128_add",
    "C128_sub",
    "C128_scale",
    "C128_neg",
    "C128_add_term",
    "C128_sub_term",
    "C128_deduplicate"
   ],
   "note": "All operators, for terms in any order; sort is any function returning a sorted permutation."
  },
  {
   "property": "C129",
   "status": "proved",
   "theorems": [
    "C129_matrices"
   ],
   "note": "End to end from the circuit's calls to the matrices. The counts of non-zero entries in ConstraintMatrices are not modelled. Circuits with the zero variable are excluded (C131), as is a second Finalize (C132)."
  },
  {
   "property": "C130",
   "status": "proved",
   "theorems": [
    "C130_prove_mode"
   ],
   "note": "Prove mode with matrices (construct_matrices = true). In prove mode without matrices EnforceConstraint aborts in this code, which the model has as None."
  },
  {
   "property": "C131",
   "status": "partial",
   "theorems": [
    "C131_zero_variable_refuted"
   ],
   "note": "Refuted: Variable::Zero() has no index, so MakeRow dereferences an empty optional for a non-zero coefficient."
  },
  {
   "property": "C132",
   "status": "partial",
   "theorems": [
    "C132_second_finalize_refuted"
   ],
   "note": "Refuted: ComputeLCNumTimesUsed sizes its vector by the number of combinations left and indexes it by their keys, which have gaps after the first Finalize."
  },
  {
   "property": "C133",
   "status": "proved",
   "theorems": [
    "C133_cache"
   ],
   "note": "The cache is modelled explicitly; the statement is about every cache reachable by interleaving calls and evaluations before Finalize."
  },
  {
   "property": "C134",
   "status": "proved",
   "theorems": [
    "C134_instance_map"
   ],
   "note": "Domain size at least constraints + instance variables, as the library's callers create it (C139). The counts of variables copied into the result are those of the matrices."
  },
  {
   "property": "C135",
   "status": "proved",
   "theorems": [
    "C135_witness_map"
   ],
   "note": "The transforms are those of FFTModel with a complete twiddle cache entry. gen is the multiplicative generator, outside the domain."
  },
  {
   "property": "C136",
   "status": "proved",
   "theorems": [
    "C136_identity_sound"
   ],
   "note": "The converse direction of C135, about arbitrary h."
  },
  {
   "property": "C137",
   "status": "proved",
   "theorems": [
    "C137_h_query"
   ],
   "note": "The callback is run through the model of base::Parallelize."
  },
  {
   "property": "C138",
   "status": "proved",
   "theorems": [
    "C138_same_matrices"
   ],
   "note": "Together with C129, C130: the matrices of the key are those of the proof."
  },
  {
   "property": "C139",
   "status": "partial",
   "theorems": [
    "C139_size_check_refuted"
   ],
   "note": "Refuted: CHECK_GE(domain->size(), num_constraints) lets a domain through that has no room for the instance variables."
  },
  {
   "property": "C140",
   "status": "proved",
   "theorems": [
    "C140_complete"
   ],
   "note": "The groups and the pairing are any groups over the scalar field with a bilinear map; multi-scalar multiplication is its specification (C50 and C51 are about the algorithms)."
  },
  {
   "property": "C141",
   "status": "proved",
   "theorems": [
    "C141_verifier"
   ],
   "note": "Aborts only for a key whose list is empty."
  },
  {
   "property": "C142",
   "status": "proved",
   "theorems": [
    "C142_unsatisfied"
   ],
   "note": "For the prover of the library; C146 is about arbitrary algebraic provers."
  },
  {
   "property": "C143",
   "status": "proved",
   "theorems": [
    "C143_re_randomize"
   ],
   "note": "r1 = 0 aborts: C144."
  },
  {
   "property": "C144",
   "status": "partial",
   "theorems": [
    "C144_draw_refuted"
   ],
   "note": "Refuted: the loop repeats only while r1 and r2 are both zero, so r1 = 0 with r2 not zero gets through, and inverting r1 aborts."
  },
  {
   "property": "C145",
   "status": "partial",
   "theorems": [
    "C145_gamma_zero_refuted"
   ],
   "note": "Refuted: ProvingKey::Load inverts gamma and delta in one batch, which skips zeros, so the key loads; VerifyingKey::Load alone aborts. The accepted forgery is (alpha, beta, 0)."
  },
  {
   "property": "C146",
   "status": "proved",
   "theorems": [
    "C146_algebraic"
   ],
   "note": "The algebraic group model in its concrete form: weights fixed, equations over the secrets. The probability over random secrets is left to the reader (Schwartz-Zippel on the complement of a grid)."
  },
  {
   "property": "C147",
   "status": "proved",
   "theorems": [
    "C147_weights"
   ],
   "note": "With C146: the circuit accepts iff some weights are accepted on every grid."
  },
  {
   "property": "C148",
   "status": "proved",
   "theorems": [
    "C148_setup"
   ],
   "note": "Groups are abstract, multi-scalar multiplication is its specification (C50, C51). Sizes above 2^62 are not covered."
  },
  {
   "property": "C149",
   "status": "proved",
   "theorems": [
    "C149_binding"
   ],
   "note": "The algebraic form: the count of secrets replaces the discrete-logarithm assumption."
  },
  {
   "property": "C150",
   "status": "proved",
   "theorems": [
    "C150_downsize"
   ],
   "note": ""
  },
  {
   "property": "C151",
   "status": "partial",
   "theorems": [
    "C151_downsize_lagrange_refuted"
   ],
   "note": "Refuted over F13: the first two of four Lagrange points are not the Lagrange points of the domain of size two."
  },
  {
   "property": "C152",
   "status": "partial",
   "theorems": [
    "C152_reload_forgery_refuted",
    "C152_reload_rejects_refuted"
   ],
   "note": "Refuted: the constructor used by ReadFrom stores the pair (G2, -tau G2) where setup stores (tau G2, -G2). The verifier read back rejects honest proofs of both schemes, and its GWC accepts any value at the point 0 with the commitment to X (p(X) - y)."
  },
  {
   "property": "C153",
   "status": "proved",
   "theorems": [
    "C153_gwc_complete"
   ],
   "note": ""
  },
  {
   "property": "C154",
   "status": "proved",
   "theorems": [
    "C154_gwc_sound"
   ],
   "note": "The prover's points are commitments to polynomials (algebraic group model); sets of challenges and secrets replace probabilities. The polynomials behind the commitments are given."
  },
  {
   "property": "C155",
   "status": "proved",
   "theorems": [
    "C155_shplonk_complete",
    "C155_shplonk_abort"
   ],
   "note": ""
  },
  {
   "property": "C156",
   "status": "proved",
   "theorems": [
    "C156_shplonk_sound"
   ],
   "note": "As C154. Only the first claim about a polynomial and point is checked: C157."
  },
  {
   "property": "C157",
   "status": "partial",
   "theorems": [
    "C157_second_claim_refuted"
   ],
   "note": "Refuted: the second claim about the same polynomial and point is ignored."
  },
  {
   "property": "C158",
   "status": "proved",
   "theorems": [
    "C158_group_single",
    "C158_group_multi"
   ],
   "note": "References are numbers; two references to one object are the same number."
  },
  {
   "property": "C159",
   "status": "partial",
   "theorems": [
    "C159_prover_reuse_refuted"
   ],
   "note": "Refuted: the batch stays open and the next call aborts in SetBatchMode."
  },
  {
   "property": "C160",
   "status": "proved",
   "theorems": [
    "C160_evaluate"
   ],
   "note": ""
  },
  {
   "property": "C161",
   "status": "proved",
   "theorems": [
    "C161_operators",
    "C161_sizes"
   ],
   "note": "Division of the empty vector by a vector with zeros returns the empty vector and is not covered by the claim about zeros."
  },
  {
   "property": "C162",
   "status": "partial",
   "theorems": [
    "C162_short_points_refuted"
   ],
   "note": "Refuted: every such call fails CHECK_EQ."
  },
  {
   "property": "C163",
   "status": "proved",
   "theorems": [
    "C163_equality"
   ],
   "note": ""
  },
  {
   "property": "C164",
   "status": "partial",
   "theorems": [
    "C164_equivalence_refuted"
   ],
   "note": "Refuted: the empty evaluations equal zeros of every size, which differ from each other."
  },
  {
   "property": "C165",
   "status": "proved",
   "theorems": [
    "C165_linear_combination",
    "C165_wrong_size"
   ],
   "note": "Shared pointers are numbers; the evaluations behind them do not change."
  },
  {
   "property": "C166",
   "status": "proved",
   "theorems": [
    "C166_interpolate"
   ],
   "note": "ToBigInt is any function that maps 0, 1, ... to themselves and every element to an integer standing for it."
  },
  {
   "property": "C167",
   "status": "proved",
   "theorems": [
    "C167_sumcheck_complete"
   ],
   "note": ""
  },
  {
   "property": "C168",
   "status": "proved",
   "theorems": [
    "C168_sumcheck_sound"
   ],
   "note": "Counting replaces probability; the verifier's draws are arguments. An abort counts as rejection (C173)."
  },
  {
   "property": "C169",
   "status": "partial",
   "theorems": [
    "C169_empty_combination_refuted"
   ],
   "note": "Refuted: the verifier reads element 1 of a vector of one element."
  },
  {
   "property": "C170",
   "status": "partial",
   "theorems": [
    "C170_second_check_refuted"
   ],
   "note": "Refuted: the first call moves randomness_ away and the second indexes it."
  },
  {
   "property": "C171",
   "status": "partial",
   "theorems": [
    "C171_proving_key_equality_refuted"
   ],
   "note": "Refuted: the operator compares flattened_ml_evaluations with itself."
  },
  {
   "property": "C172",
   "status": "partial",
   "theorems": [
    "C172_ragged_evaluations_refuted"
   ],
   "note": "Refuted over F13 with three values for two variables."
  },
  {
   "property": "C173",
   "status": "partial",
   "theorems": [
    "C173_malformed_message_refuted"
   ],
   "note": "Refuted: CHECK_EQ fails."
  },
  {
   "property": "C174",
   "status": "proved",
   "theorems": [
    "C174_optimised_permutation"
   ],
   "note": "For every matrix inversion routine that inverts nonsingular matrices (Eigen's inverse is a parameter). Rows of the optimised constants that are never written are arbitrary."
  },
  {
   "property": "C175",
   "status": "proved",
   "theorems": [
    "C175_cauchy_matrix"
   ],
   "note": ""
  },
  {
   "property": "C176",
   "status": "proved",
   "theorems": [
    "C176_permute_injective"
   ],
   "note": "Injectivity; on a finite state space this is bijectivity."
  },
  {
   "property": "C177",
   "status": "proved",
   "theorems": [
    "C177_external_matrix"
   ],
   "note": ""
  },
  {
   "property": "C178",
   "status": "proved",
   "theorems": [
    "C178_internal_matrix"
   ],
   "note": ""
  },
  {
   "property": "C179",
   "status": "proved",
   "theorems": [
    "C179_small_fields"
   ],
   "note": "Scalar Montgomery, scalar Mersenne31 and packed versions; C181 is the finding about DCHECKs."
  },
  {
   "property": "C180",
   "status": "proved",
   "theorems": [
    "C180_poseidon2_permutation"
   ],
   "note": ""
  },
  {
   "property": "C181",
   "status": "partial",
   "theorems": [
    "C181_mersenne_dcheck_refuted"
   ],
   "note": "Refuted: for the state (1, 0, ..., 0, p - 1) the second sum is p, whose low 31 bits are the modulus; F(lo) fails DCHECK_LT(value_, GetModulus()). The result in a release build is right (C179)."
  },
  {
   "property": "C182",
   "status": "partial",
   "theorems": [
    "C182_config_copy_refuted"
   ],
   "note": "Refuted: WriteTo and ReadFrom omit internal_shifts; the copy compares equal and reads past the end of an empty vector. Not covered by the repository's tests as they use diagonals."
  },
  {
   "property": "C183",
   "status": "proved",
   "theorems": [
    "C183_packed_ring",
    "C183_packed_ring_montgomery"
   ],
   "note": "AVX2 on 8 lanes, AVX-512 on 16, NEON on 4: stated for any number of lanes."
  },
  {
   "property": "C184",
   "status": "proved",
   "theorems": [
    "C184_packed_mul"
   ],
   "note": "With the constant inverse32 of the generated configuration."
  },
  {
   "property": "C185",
   "status": "proved",
   "theorems": [
    "C185_packed_powers"
   ],
   "note": ""
  },
  {
   "property": "C186",
   "status": "proved",
   "theorems": [
    "C186_packed_mersenne31_mul"
   ],
   "note": ""
  },
  {
   "property": "C187",
   "status": "proved",
   "theorems": [
    "C187_packed_inverse",
    "C187_packed_inverse_mul"
   ],
   "note": ""
  },
  {
   "property": "C188",
   "status": "partial",
   "theorems": [
    "C188_packed_zero_lane_refuted"
   ],
   "note": "Refuted: BatchInverseSerial skips zero lanes, so the CHECK passes and the returned value times the original is not one."
  },
  {
   "property": "C189",
   "status": "partial",
   "theorems": [
    "C189_packed_constructor",
    "C189_packed_mersenne31_constructor_partial",
    "C189_packed_mersenne31_constructor_refuted"
   ],
   "note": "Montgomery fields: every 32-bit integer. Mersenne31: integers below the modulus; refuted for others: the packed constructor stores the value unreduced and has no check, unlike the scalar constructor's DCHECK."
  },
  {
   "property": "C190",
   "status": "proved",
   "theorems": [
    "C190_binary_search"
   ],
   "note": ""
  },
  {
   "property": "C191",
   "status": "proved",
   "theorems": [
    "C191_multiplicities"
   ],
   "note": "The counters are unbounded in the model (2^64 increments are out of reach). Atomic increments are modelled as one lookup after another in an arbitrary order."
  },
  {
   "property": "C192",
   "status": "proved",
   "theorems": [
    "C192_log_derivative_completeness"
   ],
   "note": "Arguments without inputs are excluded: for them the code would use what the shared storage held before."
  },
  {
   "property": "C193",
   "status": "proved",
   "theorems": [
    "C193_log_derivative_soundness"
   ],
   "note": "On the rows of the domain: that vanishing on the rows follows from the quotient check is the vanishing argument, not part of this property."
  },
  {
   "property": "C194",
   "status": "proved",
   "theorems": [
    "C194_verifier_agrees"
   ],
   "note": ""
  },
  {
   "property": "C195",
   "status": "partial",
   "theorems": [
    "C195_verifier_every_proof_refuted",
    "C195_verifier_stops",
    "C195_verifier_value_refuted"
   ],
   "note": "Refuted twice: if t(x) + beta = 0 the verifier dereferences the empty optional of tau.Inverse() (the evaluations are part of the proof, written after beta is known); if some f_i(x) + beta = 0 with t(x) + beta not zero, the batch inversion leaves zero and the verifier's right side is zero, unlike the constraint polynomial's."
  },
  {
   "property": "C196",
   "status": "proved",
   "theorems": [
    "C196_shuffle_completeness"
   ],
   "note": ""
  },
  {
   "property": "C197",
   "status": "proved",
   "theorems": [
    "C197_shuffle_soundness"
   ],
   "note": "On the rows of the domain, as for C193."
  },
  {
   "property": "C198",
   "status": "partial",
   "theorems": [
    "C198_shuffle_single",
    "C198_shuffle_several_stops",
    "C198_shuffle_any_number_refuted"
   ],
   "note": "Refuted: the loop steps over two evaluators per argument and uses that index for the vector of grand products, which has one per argument; with two or more arguments the read is out of bounds. Proved for one argument."
  },
  {
   "property": "C199",
   "status": "proved",
   "theorems": [
    "C199_compression",
    "C199_accumulation"
   ],
   "note": ""
  },
  {
   "property": "C200",
   "status": "proved",
   "theorems": [
    "C200_completeness"
   ],
   "note": "Circuits without shuffle and log-derivative lookup arguments (their constraints: C192-C198); vendor Scroll; commitments, transcript and blinding of the quotient are not part of it. 'satisfied' is about the verifier's expressions on the rows; C106 and C108 say what they mean."
  },
  {
   "property": "C201",
   "status": "proved",
   "theorems": [
    "C201_soundness"
   ],
   "note": "A counting statement: openings are assumed to be of fixed polynomials (the commitment scheme is C124 and C148-C155)."
  },
  {
   "property": "C202",
   "status": "proved",
   "theorems": [
    "C202_zeta",
    "C202_disjoint"
   ],
   "note": ""
  },
  {
   "property": "C203",
   "status": "proved",
   "theorems": [
    "C203_extended"
   ],
   "note": ""
  },
  {
   "property": "C204",
   "status": "proved",
   "theorems": [
    "C204_circuit_column",
    "C204_extended_k"
   ],
   "note": "As C200."
  },
  {
   "property": "C205",
   "status": "proved",
   "theorems": [
    "C205_instance_evals"
   ],
   "note": "Recorded as behaviour: with kQueryInstance = false a public input that nearly fills the domain makes the verifier abort."
  },
  {
   "property": "C206",
   "status": "proved",
   "theorems": [
    "C206_selectors"
   ],
   "note": ""
  },
  {
   "property": "C207",
   "status": "proved",
   "theorems": [
    "C207_verifier_aborts"
   ],
   "note": "The CHECK behind the division turns a challenge inside the domain into an abort instead of a rejection."
  },
  {
   "property": "C208",
   "status": "partial",
   "theorems": [
    "C208_pse_column_refuted"
   ],
   "note": "Refuted: the graph evaluators take rows modulo n while the PSE columns have the size of the extended domain, so the column repeats with period n; the selectors of the permutation and lookups are never filled for that vendor. The vendor is reachable through the bn254 PSE C API."
  },
  {
   "property": "C209",
   "status": "proved",
   "theorems": [
    "C209_lagrange_wrap"
   ],
   "note": ""
  },
  {
   "property": "C210",
   "status": "proved",
   "theorems": [
    "C210_tonelli_shanks",
    "C210_generated_root"
   ],
   "note": "Primes of the form 2^k + 1 are C221."
  },
  {
   "property": "C211",
   "status": "proved",
   "theorems": [
    "C211_shanks"
   ],
   "note": ""
  },
  {
   "property": "C212",
   "status": "proved",
   "theorems": [
    "C212_legendre",
    "C212_multiplicative"
   ],
   "note": ""
  },
  {
   "property": "C213",
   "status": "proved",
   "theorems": [
    "C213_ys_from_x",
    "C213_create_from_x",
    "C213_roundtrip"
   ],
   "note": "SquareRoot enters through its specification, which C210 and C211 prove."
  },
  {
   "property": "C214",
   "status": "partial",
   "theorems": [
    "C214_pick_odd_refuted"
   ],
   "note": "Refuted for points of order two: -0 = 0 is even. The documented promise does not hold for them; CreateFromX still returns the only point."
  },
  {
   "property": "C215",
   "status": "proved",
   "theorems": [
    "C215_root_of_unity_large",
    "C215_generated_large_root"
   ],
   "note": "n = 0 is excluded. Decompose's double-precision powers are taken to be exact."
  },
  {
   "property": "C216",
   "status": "partial",
   "theorems": [
    "C216_goldilocks_refuted",
    "C216_goldilocks_powers_of_two"
   ],
   "note": "Refuted: the generator writes the root in Montgomery form also for fields without it, and GetRootOfUnity reads it as the element, so GetRootOfUnity(3) returns 1. For powers of two the result is primitive (proved), because 2^64 has order 3 modulo p."
  },
  {
   "property": "C217",
   "status": "proved",
   "theorems": [
    "C217_point_roundtrip"
   ],
   "note": ""
  },
  {
   "property": "C218",
   "status": "partial",
   "theorems": [
    "C218_legacy_zero_x_refuted"
   ],
   "note": "Refuted: x = 0 marks infinity in the legacy format."
  },
  {
   "property": "C219",
   "status": "partial",
   "theorems": [
    "C219_second_encoding_refuted",
    "C219_ignored_flag_refuted"
   ],
   "note": "Refuted: x + p is accepted when it fits beside the flags (254-bit fields such as bn254 in the legacy format), and in the new format the infinity flag of a finite point is ignored."
  },
  {
   "property": "C220",
   "status": "partial",
   "theorems": [
    "C220_check_bits_legacy",
    "C220_check_bits_refuted",
    "C220_check_bits_rejects_refuted"
   ],
   "note": "Refuted in the new format: the test compares kModulusBits mod 8 with the number of flags, which accepts 255-bit moduli with one free bit and rejects 248- or 249-bit ones with many. In the legacy format acceptance implies a free bit (proved). Nothing calls CheckBits."
  },
  {
   "property": "C221",
   "status": "partial",
   "theorems": [
    "C221_fermat_prime_refuted",
    "C221_uninitialised_refuted"
   ],
   "note": "Refuted: for p = 2^k + 1 ComputeTrace returns 0 instead of 1 and the generated root is 1; before Init() it is 0. In both cases the loop does not end."
  },
  {
   "property": "C222",
   "status": "proved",
   "theorems": [
    "C222_free_intervals"
   ],
   "note": ""
  },
  {
   "property": "C223",
   "status": "proved",
   "theorems": [
    "C223_first_fit"
   ],
   "note": ""
  },
  {
   "property": "C224",
   "status": "proved",
   "theorems": [
    "C224_biggest_advice_first",
    "C224_no_overlap"
   ],
   "note": "The sort routines enter through their specification."
  },
  {
   "property": "C225",
   "status": "proved",
   "theorems": [
    "C225_layout_independent_of_column_order"
   ],
   "note": ""
  },
  {
   "property": "C226",
   "status": "proved",
   "theorems": [
    "C226_cells_for_constants"
   ],
   "note": ""
  },
  {
   "property": "C227",
   "status": "proved",
   "theorems": [
    "C227_v1_floor_planner"
   ],
   "note": "Lookup tables are C229. A region's callback is taken to make the same calls in both passes."
  },
  {
   "property": "C228",
   "status": "proved",
   "theorems": [
    "C228_simple_floor_planner"
   ],
   "note": "Lookup tables are C229."
  },
  {
   "property": "C229",
   "status": "proved",
   "theorems": [
    "C229_lookup_table",
    "C229_columns_are_not_reused"
   ],
   "note": ""
  },
  {
   "property": "C230",
   "status": "partial",
   "theorems": [
    "C230_full_table_refuted"
   ],
   "note": "Refuted: AssignLookupTable always calls FillFromRow, whose CHECK wants the first row to fill to be usable (upstream halo2 does the same)."
  },
  {
   "property": "C231",
   "status": "partial",
   "theorems": [
    "C231_table_while_proving_refuted"
   ],
   "note": "Refuted for every table: AssignFixed of the WitnessCollection does not run the callback, so the default value is an unknown Value, and value() dereferences its empty optional. The reference is then handed to a FillFromRow that ignores it."
  },
  {
   "property": "C232",
   "status": "partial",
   "theorems": [
    "C232_value_inequality_refuted"
   ],
   "note": "Refuted: operator!= calls itself instead of operator==, and never returns."
  },
  {
   "property": "C233",
   "status": "partial",
   "theorems": [
    "C233_column_order_refuted"
   ],
   "note": "Refuted: two fixed, two instance or two advice columns of one phase are unordered, against the comment that the ordering is consensus-critical. By C225 the layout does not depend on it."
  },
  {
   "property": "C234",
   "status": "partial",
   "theorems": [
    "C234_layout_independent_of_the_sort_refuted"
   ],
   "note": "Refuted: regions of equal advice area are placed in the order the unstable sort gives them; two correct sorts give different layouts."
  },
  {
   "property": "C235",
   "status": "partial",
   "theorems": [
    "C235_refused_cell_refuted"
   ],
   "note": "Refuted: the second value for row 0 is stored before the call returns false, while the padding keeps the first."
  },
  {
   "property": "C236",
   "status": "proved",
   "theorems": [
    "C236_binary_fields_are_fields"
   ],
   "note": "Proved for every power of two, the code has 1 to 128 bits."
  },
  {
   "property": "C237",
   "status": "proved",
   "theorems": [
    "C237_square_alpha_inverse"
   ],
   "note": ""
  },
  {
   "property": "C238",
   "status": "proved",
   "theorems": [
    "C238_tower_subfields",
    "C238_halves",
    "C238_compose"
   ],
   "note": ""
  },
  {
   "property": "C239",
   "status": "partial",
   "theorems": [
    "C239_no_inverse_of_two",
    "C239_two_inv_refuted"
   ],
   "note": "Refuted at every width above one bit: TwoInv inverts the element whose representation is 2, while One + One is zero and has no inverse. (At one bit the constructor's DCHECK fails.)"
  },
  {
   "property": "C240",
   "status": "proved",
   "theorems": [
    "C240_evaluate"
   ],
   "note": ""
  },
  {
   "property": "C241",
   "status": "partial",
   "theorems": [
    "C241_long_points_refused",
    "C241_short_points_refuted"
   ],
   "note": "Longer points are refused; refuted for shorter ones: the CHECK_LE is the wrong way round, and a missing coordinate is read outside the vector."
  },
  {
   "property": "C242",
   "status": "proved",
   "theorems": [
    "C242_negate"
   ],
   "note": ""
  },
  {
   "property": "C243",
   "status": "partial",
   "theorems": [
    "C243_univariate_terms_partial",
    "C243_ordered_literals_partial",
    "C243_sum_refuted"
   ],
   "note": "Refuted: Literal::operator< compares only the last element and the length, so x0 x2 and x1 x2 count as equal and their coefficients are added up under one of them. Proved where unordered literals are the same monomial, in particular for powers of single variables."
  },
  {
   "property": "C244",
   "status": "partial",
   "theorems": [
    "C244_compact_partial",
    "C244_huge_exponent_refuted"
   ],
   "note": "Proved for at least one term and total degrees below 2^31. Refuted otherwise: Degree accumulates in an int, so x^(2^32) counts as constant. For no terms see C245."
  },
  {
   "property": "C245",
   "status": "partial",
   "theorems": [
    "C245_self_difference_refuted"
   ],
   "note": "Refuted for every non-zero p: Compact of an empty vector starts reading at begin() + 1."
  },
  {
   "property": "C246",
   "status": "partial",
   "theorems": [
    "C246_sum_evaluates_refuted"
   ],
   "note": "Refuted for all non-zero summands: the result is default-initialised, and num_vars_ is never set."
  },
  {
   "property": "C247",
   "status": "partial",
   "theorems": [
    "C247_degree_one_variable_partial",
    "C247_degree_refuted"
   ],
   "note": "Refuted: Degree is that of the last term, terms are ordered by variable first. Proved for sorted polynomials in one variable."
  },
  {
   "property": "C248",
   "status": "partial",
   "theorems": [
    "C248_lookup_partial",
    "C248_lookup_sound",
    "C248_lookup_refuted"
   ],
   "note": "Refuted: x1 x2 is not found in x0 x2 + x1 x2, since the two literals are not ordered. Proved for strictly ascending terms."
  },
  {
   "property": "C249",
   "status": "proved",
   "theorems": [
    "C249_inverse_modulo_2_62"
   ],
   "note": ""
  },
  {
   "property": "C250",
   "status": "proved",
   "theorems": [
    "C250_arithmetic",
    "C250_observations",
    "C250_load_save"
   ],
   "note": ""
  },
  {
   "property": "C251",
   "status": "proved",
   "theorems": [
    "C251_transition_matrix"
   ],
   "note": "Shows that no int64_t operation of Jump on the matrix overflows; left shifts of negative numbers are taken as in C++20."
  },
  {
   "property": "C252",
   "status": "proved",
   "theorems": [
    "C252_invert"
   ],
   "note": "Shows that no int64_t operation overflows, on delta neither: it stays within 64 N + 63."
  },
  {
   "property": "C253",
   "status": "proved",
   "theorems": [
    "C253_field_inverse"
   ],
   "note": ""
  },
  {
   "property": "C254",
   "status": "partial",
   "theorems": [
    "C254_xorshift_stream",
    "C254_xorshift_no_merge",
    "C254_xorshift_never_zero_partial",
    "C254_zero_seed_refuted"
   ],
   "note": "The zero seed is accepted and yields zeros for ever (C254_zero_seed_refuted); for every other seed four consecutive outputs are never all zero."
  },
  {
   "property": "C255",
   "status": "proved",
   "theorems": [
    "C255_xorshift_save_restore",
    "C255_xorshift_layout",
    "C255_chacha_save_restore",
    "C255_chacha_layout",
    "C255_failed_read_keeps_state"
   ],
   "note": ""
  },
  {
   "property": "C256",
   "status": "proved",
   "theorems": [
    "C256_chacha_stream",
    "C256_chacha_default",
    "C256_chacha_inputs_distinct"
   ],
   "note": "chacha_core is BoringSSL's and is a parameter: the theorems hold for every block function. The instance of RFC 8439 gives the first value of the unit test."
  },
  {
   "property": "C257",
   "status": "partial",
   "theorems": [
    "C257_wrong_size_rejected",
    "C257_chacha_reseed_partial",
    "C257_chacha_reseed_refuted"
   ],
   "note": "False of ChaCha20RNG (C257_chacha_reseed_refuted): SetSeed keeps the unread words of the block and the counter; C257_chacha_reseed_partial says exactly what is drawn. True of XORShiftRNG (C254)."
  },
  {
   "property": "C258",
   "status": "partial",
   "theorems": [
    "C258_restored_index_partial",
    "C258_restored_index_refuted"
   ],
   "note": "False (C258_restored_index_refuted): the index read is not checked, and one above 16 makes the next draw read past output_. C258_restored_index_partial: this is the only case."
  },
  {
   "property": "C259",
   "status": "proved",
   "theorems": [
    "C259_from_uint512",
    "C259_from_uint512_bytes",
    "C259_from_uint128",
    "C259_generate"
   ],
   "note": ""
  },
  {
   "property": "C260",
   "status": "partial",
   "theorems": [
    "C260_blind_partial",
    "C260_blind_succeeds_partial",
    "C260_blind_wraps_refuted"
   ],
   "note": "With 2^32 - 1 factors and the last row the count wraps to zero and nothing is blinded (C260_blind_wraps_refuted); the other theorems exclude that number."
  },
  {
   "property": "C261",
   "status": "proved",
   "theorems": [
    "C261_get_index",
    "C261_get_index_defined",
    "C261_get_index_inverse"
   ],
   "note": ""
  },
  {
   "property": "C262",
   "status": "partial",
   "theorems": [
    "C262_grain_stream",
    "C262_grain_sequence_unique",
    "C262_grain_distinct_partial",
    "C262_grain_wide_config_refuted"
   ],
   "note": "Entries wider than 12 or 10 bits are cut without notice, so two state lengths can give one generator (C262_grain_wide_config_refuted); C262_grain_distinct_partial: that is the only way."
  },
  {
   "property": "C263",
   "status": "proved",
   "theorems": [
    "C263_get_bits",
    "C263_selection_unique",
    "C263_pairs_contribute",
    "C263_get_bits_too_many"
   ],
   "note": "Termination: the polynomial of the recurrence is squarefree (a Bezout identity of its even and odd parts), so the first bits of the pairs cannot be zero 80 times."
  },
  {
   "property": "C264",
   "status": "partial",
   "theorems": [
    "C264_rejection_sampling_partial",
    "C264_mod_p",
    "C264_wrong_bits_refused"
   ],
   "note": "C264_rejection_sampling_partial: that the loop over rejected integers ends is not proved; it goes on only while all integers drawn are at least the modulus."
  },
  {
   "property": "C265",
   "status": "partial",
   "theorems": [
    "C265_ark_and_mds_draws_partial"
   ],
   "note": "As C264: termination of the rejection loop is not proved."
  },
  {
   "property": "C266",
   "status": "proved",
   "theorems": [
    "C266_commit",
    "C266_homomorphic",
    "C266_binding",
    "C266_hiding"
   ],
   "note": ""
  },
  {
   "property": "C267",
   "status": "proved",
   "theorems": [
    "C267_kzg_batch",
    "C267_misuse"
   ],
   "note": "Entries never committed to are what a new Bucket is."
  },
  {
   "property": "C268",
   "status": "partial",
   "theorems": [
    "C268_batch_blinding_refuted",
    "C268_batch_unblinded_partial"
   ],
   "note": "False (C268_batch_blinding_refuted): the batch DoCommit does not use the random value, so commitments of a batch are not hiding and differ from those made one by one. C268_batch_unblinded_partial: they are the commitments with the random value zero."
  },
  {
   "property": "C269",
   "status": "proved",
   "theorems": [
    "C269_accepted",
    "C269_cells",
    "C269_queries"
   ],
   "note": "A callback returning Value::Unknown for a column of the current phase is undefined behaviour (as in C231), here the outcome Undefined."
  },
  {
   "property": "C270",
   "status": "proved",
   "theorems": [
    "C270_columns",
    "C270_order",
    "C270_inactive_rows_fixed"
   ],
   "note": "One circuit and one phase. The comment in the code speaks of blinding factors, but no random value is written into the column: C270_inactive_rows_fixed."
  }
 ]
}