{
 "claims": [
  {
   "property": "C01",
   "status": "proved",
   "theorems": [
    "C01_count_bit16",
    "C01_count_bit32",
    "C01_count_bit64"
   ],
   "note": "16-, 32- and 64-bit versions, every word."
  },
  {
   "property": "C02",
   "status": "proved",
   "theorems": [
    "C02_reverse_bit32",
    "C02_reverse_bit64"
   ],
   "note": "32- and 64-bit versions, every word and bit position, involution."
  },
  {
   "property": "C03",
   "status": "partial",
   "theorems": [
    "C03_calc_1pos16",
    "C03_calc_1pos32_refuted",
    "C03_calc_1pos64_refuted",
    "C03_calc_1pos32_partial",
    "C03_calc_1pos64_partial",
    "C03_calc_1pos32_wrapping",
    "C03_calc_1pos64_wrapping",
    "C03_position_unique"
   ],
   "note": "16 bit: full. 32/64 bit: the strict claim is refuted (signed negation of INT_MIN for the word with only the top bit set); proved for every other word, and for every word when negation wraps."
  },
  {
   "property": "C04",
   "status": "proved",
   "theorems": [
    "C04_floor2p",
    "C04_floor2p_zero"
   ],
   "note": "Termination and value for n >= 1, divergence for 0."
  },
  {
   "property": "C05",
   "status": "proved",
   "theorems": [
    "C05_get_range",
    "C05_get_range_exit",
    "C05_get_range_overflow"
   ],
   "note": "Range, surjectivity, cyclicity, exit, and overflow outside the stated condition."
  },
  {
   "property": "C06",
   "status": "proved",
   "theorems": [
    "C06_fill_table",
    "C06_fill_table_linear"
   ],
   "note": "Any size up to 2^30 (beyond that the loop variable of the code overflows), any previous content; linearity on a zeroed table."
  },
  {
   "property": "C07",
   "status": "partial",
   "theorems": [
    "C07_toGF2Vec",
    "C07_round_trip_refuted",
    "C07_fromGF2Vec_always_undef",
    "C07_from_to_partial",
    "C07_to_from_partial"
   ],
   "note": "The claim without undefined behaviour is refuted: fromGF2Vec always evaluates a shift by -1. With an arbitrary value for that unused shift the round trips are proved."
  },
  {
   "property": "C08",
   "status": "proved",
   "theorems": [
    "C08_getBitOfPos",
    "C08_setBitOfPos"
   ],
   "note": "Every word, width, position below the width, value."
  },
  {
   "property": "C09",
   "status": "proved",
   "theorems": [
    "C09_digits",
    "C09_injective",
    "C09_zero"
   ],
   "note": "Every polynomial, with and without line breaks; the zero polynomial prints one digit 0 and degree -1."
  },
  {
   "property": "C10",
   "status": "partial",
   "theorems": [
    "C10_lcm",
    "C10_alias",
    "C10_zero_refuted"
   ],
   "note": "Proved for every pair that is not (0,0), with every aliasing of the result variable. For two zero polynomials the claim is refuted: the division by the zero gcd terminates the program."
  },
  {
   "property": "C11",
   "status": "proved",
   "theorems": [
    "C11_mt19937_stream",
    "C11_sequence_exists"
   ],
   "note": "Any previous content of the object, any scalar seed, key or string seed, any number of calls."
  },
  {
   "property": "C12",
   "status": "proved",
   "theorems": [
    "C12_history_independent",
    "C12_low_32_bits",
    "C12_init_by_array",
    "C12_chain_exists"
   ],
   "note": "Any history of seeding and getter calls; scalar, array and string seeding."
  },
  {
   "property": "C13",
   "status": "proved",
   "theorems": [
    "C13_no_indeterminate_read",
    "C13_no_indeterminate_read64"
   ],
   "note": "Both generators; uninitialised cells and out-of-bounds indices are a distinct outcome of the model."
  },
  {
   "property": "C14",
   "status": "proved",
   "theorems": [
    "C14_temper32_bijection",
    "C14_temper64_bijection"
   ],
   "note": "Both tempering functions, on all words."
  },
  {
   "property": "C15",
   "status": "proved",
   "theorems": [
    "C15_mt19937_64_stream",
    "C15_sequence_exists",
    "C15_history_independent",
    "C15_init_by_array64"
   ],
   "note": "Any previous content of the object, any seed, key or string seed, any number of calls."
  },
  {
   "property": "C16",
   "status": "proved",
   "theorems": [
    "C16_widths32",
    "C16_widths64"
   ],
   "note": "Any interleaving of getter calls after any seeding."
  },
  {
   "property": "C17",
   "status": "proved",
   "theorems": [
    "C17_seeded_state_nonzero32",
    "C17_seeded_state_nonzero64",
    "C17_outputs_nonzero32",
    "C17_outputs_nonzero64",
    "C17_linear_bijection32",
    "C17_linear_bijection64"
   ],
   "note": "State not zero for ever, no n consecutive zero outputs; transition injective, onto and linear on the 19937-bit state."
  },
  {
   "property": "C18",
   "status": "proved",
   "theorems": [
    "C18_enumerates_all",
    "C18_enumerates_from_seed"
   ],
   "note": "Every width, mask and start value."
  },
  {
   "property": "C19",
   "status": "proved",
   "theorems": [
    "C19_refines",
    "C19_values_in_range",
    "C19_output_widths"
   ],
   "note": "Refinement for every interleaving of construction, copy, seed, reseed and the three getters."
  },
  {
   "property": "C20",
   "status": "proved",
   "theorems": [
    "C20_minpoly",
    "C20_unique",
    "C20_position"
   ],
   "note": "Every linear generator, state, bit position below the output width and state size bound; NTL's MinPolySeq enters as a parameter with its documented behaviour (an instance is constructed)."
  },
  {
   "property": "C21",
   "status": "partial",
   "theorems": [
    "C21_decides",
    "C21_any_list",
    "C21_returns",
    "C21_X_refuted"
   ],
   "note": "Proved for every degree, polynomial and complete factor list except the polynomial X with degree 1, for which the claim is refuted."
  },
  {
   "property": "C22",
   "status": "partial",
   "theorems": [
    "C22_isMexp",
    "C22_isPrime_partial",
    "C22_exact_607",
    "C22_isMexp_sound_partial",
    "C22_isPrime_sound_partial",
    "C22_24036583"
   ],
   "note": "isMexp(d) is exact for every d <= 607 and sound for d <= 4252 (Lucas-Lehmer run in Coq on Uint63 limbs); isPrime(poly) is sound for degrees up to 4252, and for greater degrees under the hypothesis that the table entry is a Mersenne exponent. Missing: primality of 2^d-1 for the entries from 4253 on. Completeness up to the largest entry fails if 2^24036583-1 is prime (C22_24036583)."
  },
  {
   "property": "C23",
   "status": "proved",
   "theorems": [
    "C23_tables",
    "C23_texts",
    "C23_exponents"
   ],
   "note": "All 17 tables, copied as strings; primality by Pocklington certificates checked in Coq."
  },
  {
   "property": "C24",
   "status": "partial",
   "theorems": [
    "C24_factor",
    "C24_zero_polynomial",
    "C24_negative",
    "C24_terminates_refuted"
   ],
   "note": "Proved for every non-zero polynomial and every degree >= 0; for a negative degree termination is refuted."
  },
  {
   "property": "C25",
   "status": "proved",
   "theorems": [
    "C25_string_table",
    "C25_digit_strings",
    "C25_stream_table"
   ],
   "note": "Both readers (isPrime with strings, AlgorithmPrimitivity with a string stream); every list of strings of any length."
  },
  {
   "property": "C26",
   "status": "proved",
   "theorems": [
    "C26_mersenne",
    "C26_table",
    "C26_shipped",
    "C26_mersenne_small"
   ],
   "note": "Mersenne case for every n with 2^n-1 prime; table case for all 17 shipped tables (C26_shipped) and for any complete table."
  },
  {
   "property": "C27",
   "status": "proved",
   "theorems": [
    "C27_search",
    "C27_returns",
    "C27_good_full",
    "C27_full_good"
   ],
   "note": "Every family of linear generators, parameter source, number of tries; for any primitivity test that decides (C26)."
  },
  {
   "property": "C28",
   "status": "proved",
   "theorems": [
    "C28_search"
   ],
   "note": "Every family, parameter source and number of tries; also that every period of the seeded state is a multiple of 2^mexp-1 when that is prime."
  },
  {
   "property": "C29",
   "status": "proved",
   "theorems": [
    "C29_annihilate",
    "C29_annihilating",
    "C29_compose"
   ],
   "note": "Every linear generator, state and polynomial."
  },
  {
   "property": "C30",
   "status": "proved",
   "theorems": [
    "C30_charpoly",
    "C30_full_degree"
   ],
   "note": "Every linear generator and state; also minimality of the result."
  },
  {
   "property": "C31",
   "status": "partial",
   "theorems": [
    "C31_dsfmt_contract",
    "C31_dsfmt",
    "C31_strict_never",
    "C31_strict_refuted",
    "C31_certifies_partial",
    "C31_returns_partial",
    "C31_returns_refuted",
    "C31_throw_partial",
    "C31_rmt_contract",
    "C31_rmt_partial",
    "C31_rmt_undefined",
    "C31_sfmt_contract",
    "C31_sfmt",
    "C31_sfmt_calc_1pos"
   ],
   "note": "Read strictly, setBitOfPos and fromGF2Vec shift by -1 in every call, so searchParity never returns (C31_strict_never, C31_strict_refuted). For implementations where that shift yields any value: result non-zero, certified states have a component in the large part and period divisible by 2^mexp-1 (C31_certifies_partial); the search returns if parity words determine the state and fewer than w dimensions lie beside the large part (C31_returns_partial; without observability it can loop, C31_returns_refuted); it throws only if no certificate exists (C31_throw_partial). NTL::kernel and calc_1pos by their specifications. RMT64 meets the contract (C31_rmt_contract); the search on it ends in a certificate or in the undefined setOneBit (C31_rmt_partial), always the latter with more than 32 bits beside the Mersenne exponent, e.g. mexp 521 (C31_rmt_undefined). On sfmt with parameters of setUpParam and weight mode 4 it always returns a certificate (C31_sfmt_contract, C31_sfmt, C31_sfmt_calc_1pos). The same on dSFMT in weight mode 2 with sl1 > 0 (C31_dsfmt_contract, C31_dsfmt)."
  },
  {
   "property": "C32",
   "status": "proved",
   "theorems": [
    "C32_dimension",
    "C32_calc_1pos16",
    "C32_calc_1pos32",
    "C32_calc_1pos64",
    "C32_xorshift2"
   ],
   "note": "For every generator that satisfies the contract linear_gen (dimension, width, state arbitrary). Reductions run with an explicit iteration bound. calc_1pos enters through pos_spec, proved for the 16-bit function and, where signed negation wraps, for 32 and 64 bits. Instance: the exact k(1)..k(32) of xorshift-2.cpp."
  },
  {
   "property": "C33",
   "status": "partial",
   "theorems": [
    "C33_no_exception_partial",
    "C33_strict32_refuted",
    "C33_strict64_refuted",
    "C33_xorshift_refuted"
   ],
   "note": "Full for any calc_1pos meeting pos_spec (16 bit; 32/64 bit with wrapping negation): terminates within the stated bound, no throw, no index error. With the standard's calc_1pos the claim is refuted for 32/64-bit outputs: the run is undefined for every linear generator whose leading bit is not constantly zero (-INT_MIN)."
  },
  {
   "property": "C34",
   "status": "proved",
   "theorems": [
    "C34_sums"
   ],
   "note": "Both sums, non-negativity of every term, untouched entries."
  },
  {
   "property": "C35",
   "status": "proved",
   "theorems": [
    "C35_maximal_period"
   ],
   "note": "Occurrence counts over one period and over the full state space, and maximality."
  },
  {
   "property": "C36",
   "status": "proved",
   "theorems": [
    "C36_later_state",
    "C36_any_nonzero_state"
   ],
   "note": "Later state of the same orbit (invertible transition); any two non-zero states (maximal period)."
  },
  {
   "property": "C37",
   "status": "proved",
   "theorems": [
    "C37_component",
    "C37_state"
   ],
   "note": "Every linear generator with invertible transition and a state whose output has full linear complexity, simple irreducible factor; without these hypotheses C37_state describes the state that is analysed."
  },
  {
   "property": "C38",
   "status": "proved",
   "theorems": [
    "C38_accepts_linear",
    "C38_rejection",
    "C38_exact",
    "C38_incomplete",
    "C38_xorshift"
   ],
   "note": "Acceptance of every linear generator, exact meaning of acceptance and rejection, the xorshift samples with any parameters; a theorem shows that acceptance does not imply linearity."
  },
  {
   "property": "C39",
   "status": "proved",
   "theorems": [
    "C39_search",
    "C39_windows",
    "C39_windows_inside",
    "C39_outside",
    "C39_never_worse",
    "C39_wide_window_undefined"
   ],
   "note": "Arbitrary generator with the stated laws of setTemperingPattern and an arbitrary defect; windows of 31 bits and more are undefined behaviour (theorem)."
  },
  {
   "property": "C40",
   "status": "partial",
   "theorems": [
    "C40_search",
    "C40_search_best_refuted",
    "C40_stale_refuted",
    "C40_eight_parameters_undefined"
   ],
   "note": "The whole search is proved for up to seven parameters. The sentence about search_best_temper itself is refuted (it also returns candidates that are not minimal; operator() filters them), eight parameters are undefined behaviour, and for generators that need setUpTempering the defect measured is stale (refuted)."
  },
  {
   "property": "C41",
   "status": "proved",
   "theorems": [
    "C41_search"
   ],
   "note": "Arbitrary linear generator with tempering that keeps the recursion; instance: TinyMT32. Assumes the documented behaviour of MinPolySeq."
  },
  {
   "property": "C42",
   "status": "partial",
   "theorems": [
    "C42_linear3",
    "C42_linear4",
    "C42_linear5",
    "C42_vector_faithful",
    "C42_isZero",
    "C42_parameters3",
    "C42_parameters4",
    "C42_bijective_refuted",
    "C42_bijective3_partial",
    "C42_bijective4_partial",
    "C42_bijective5",
    "C42_bijective1"
   ],
   "note": "Contract proved for all samples and all parameters. 'Bijective for all parameters of the search' is refuted (a zero shift count); exact characterisation of the bijective parameters proved."
  },
  {
   "property": "C43",
   "status": "partial",
   "theorems": [
    "C43_linear",
    "C43_output",
    "C43_state",
    "C43_isZero",
    "C43_invertible",
    "C43_st32",
    "C43_stlsb32",
    "C43_clone_partial",
    "C43_clone_refuted",
    "C43_lsb_defect_refuted",
    "C43_lsb_tempering_refuted",
    "C43_published"
   ],
   "note": "Linearity, output, invertibility, zero test, tempering searches, period and defect of the published parameters proved. The sentence about clone() is refuted: the copy constructor drops reverse_bit_flag, hence the search from the least significant bits measures the wrong defect."
  },
  {
   "property": "C44",
   "status": "partial",
   "theorems": [
    "C44_linear",
    "C44_output",
    "C44_state",
    "C44_invertible",
    "C44_mt19937",
    "C44_mt32_new",
    "C44_mt32_setUpParam",
    "C44_mt32_setTemperingPattern",
    "C44_mt32_new_undefined",
    "C44_isZero_refuted",
    "C44_isZero_partial"
   ],
   "note": "Everything but isZero: linear contract on the mexp bits, output, equality of states, invertibility, constructors and setUpParam. isZero is refuted both ways for all parameters (it masks the newest word instead of the oldest); what it decides is proved. Exponents divisible by 32 make the constructor shift by 32 (undefined)."
  },
  {
   "property": "C45",
   "status": "partial",
   "theorems": [
    "C45_setOneBit_partial",
    "C45_unit_vector_partial",
    "C45_bit31",
    "C45_high_undefined",
    "C45_setParityValue",
    "C45_setOneBit_refuted"
   ],
   "note": "The claim is refuted: state[idx] = 1 << r shifts an int. Proved for the lower 31 bits of each word; for bit 31 exactly 33 bits are set (INT_MIN sign-extended), above that the shift is undefined."
  },
  {
   "property": "C46",
   "status": "partial",
   "theorems": [
    "C46_injective",
    "C46_shift_right",
    "C46_shift_left",
    "C46_shift_range",
    "C46_mask",
    "C46_mask_range",
    "C46_and",
    "C46_or",
    "C46_xor",
    "C46_not",
    "C46_equal",
    "C46_isZero",
    "C46_constants",
    "C46_getBitOfPos",
    "C46_setBitOfPos",
    "C46_pos_range",
    "C46_reverse_bit",
    "C46_calc_1pos_wrapping",
    "C46_calc_1pos_partial",
    "C46_calc_1pos_refuted",
    "C46_rshift128",
    "C46_lshift128",
    "C46_byte_shift_range"
   ],
   "note": "All operations proved for every word; calc_1pos negates INT64_MIN for two kinds of words (refuted under the strict reading, right when negation wraps). Shift counts and bit positions outside the range are undefined behaviour (theorems); the byte shifts are undefined for the count 0. Little endian layout of the union is assumed."
  },
  {
   "property": "C47",
   "status": "proved",
   "theorems": [
    "C47_certified",
    "C47_change",
    "C47_zero_parity",
    "C47_dsfmt_certified",
    "C47_dsfmt_change"
   ],
   "note": "SFMT and dSFMT. The functions read state[0] / lung only, so they are modelled on that word."
  },
  {
   "property": "C48",
   "status": "partial",
   "theorems": [
    "C48_key_ignored_refuted"
   ],
   "note": "Refuted: xorshift128_init_by_array never writes its local array to the object, the key has no influence."
  },
  {
   "property": "C49",
   "status": "proved",
   "theorems": [
    "C49_single_use"
   ],
   "note": "Result of the second call is never a normal return."
  },
  {
   "property": "C50",
   "status": "proved",
   "theorems": [
    "C50_init_injective",
    "C50_never_zero",
    "C50_seed_nonzero"
   ],
   "note": "xorshift128_init and the C++ seed functions."
  },
  {
   "property": "C51",
   "status": "proved",
   "theorems": [
    "C51_xorshift3",
    "C51_xorshift4"
   ],
   "note": "Assumes the documented behaviour of MinPolySeq and that signed negation in calc_1pos wraps. Printing is modelled as the list of results. Any exception leaves the loop of main in the model (the code catches underflow_error only; no other is thrown in the proved runs)."
  },
  {
   "property": "C52",
   "status": "proved",
   "theorems": [
    "C52_period_5_14_1",
    "C52_period_20_11_7",
    "C52_xorshift128_period",
    "C52_xorshift1",
    "C52_xorshift2",
    "C52_equidistribution",
    "C52_xorshift2_strict_refuted"
   ],
   "note": "The period is certified by computation in the kernel with the proved factorisation of 2^128-1. Under the strict reading of signed overflow the run of xorshift-2 is undefined (refuted theorem)."
  },
  {
   "property": "C53",
   "status": "proved",
   "theorems": [
    "C53_distinct",
    "C53_odd",
    "C53_top_bit_refuted"
   ],
   "note": "Numbers of 2^31 and more repeat (theorem); the program does not use them."
  },
  {
   "property": "C54",
   "status": "proved",
   "theorems": [
    "C54_program"
   ],
   "note": "Assumes the documented behaviour of MinPolySeq and that signed negation in calc_1pos wraps. Option parsing and printing are not modelled: the output is the list of results."
  },
  {
   "property": "C55",
   "status": "proved",
   "theorems": [
    "C55_same_sequence"
   ],
   "note": "Every 32-bit seed, every length, any previous memory content of the library object."
  },
  {
   "property": "C56",
   "status": "proved",
   "theorems": [
    "C56_any_outputs",
    "C56_dimension",
    "C56_mt127"
   ],
   "note": "The full period is a hypothesis of C56_dimension; C56_mt127 exhibits parameters for 127 bits that have it. The period of MT19937 itself is not certified."
  },
  {
   "property": "C57",
   "status": "proved",
   "theorems": [
    "C57_linear",
    "C57_output",
    "C57_state",
    "C57_isZero",
    "C57_invertible",
    "C57_any_outputs",
    "C57_new",
    "C57_setUpParam",
    "C57_getParamString"
   ],
   "note": "Invertibility is for middle positions other than 0 (setUpParam may also choose 0)."
  },
  {
   "property": "C58",
   "status": "partial",
   "theorems": [
    "C58_linear",
    "C58_output",
    "C58_state",
    "C58_invertible",
    "C58_untempered",
    "C58_new",
    "C58_new_undefined",
    "C58_isZero_refuted",
    "C58_isZero_partial"
   ],
   "note": "Everything but isZero is proved; isZero is wrong: it masks the newest instead of the oldest word, with a member that is never initialised (C58_isZero_refuted); C58_isZero_partial says what it decides."
  },
  {
   "property": "C59",
   "status": "proved",
   "theorems": [
    "C59_setUpParam",
    "C59_ids",
    "C59_exit",
    "C59_small_sizes",
    "C59_singular",
    "C59_setPattern",
    "C59_setPattern_undefined",
    "C59_setUpTempering"
   ],
   "note": "The draws are arguments of the model. C59_singular: the drawn table may make the recursion non-invertible, although single bits are guarded. C59_exit: sizes below 8 (and a few above powers of two) exit the program."
  },
  {
   "property": "C60",
   "status": "proved",
   "theorems": [
    "C60_linear",
    "C60_output",
    "C60_defined",
    "C60_state",
    "C60_isZero",
    "C60_invertible",
    "C60_not_invertible",
    "C60_seed",
    "C60_new",
    "C60_size",
    "C60_fresh_refuted"
   ],
   "note": "C60_fresh_refuted: an object of the one-argument constructor has shift counts 0, generate() is undefined before setUpParam."
  },
  {
   "property": "C61",
   "status": "proved",
   "theorems": [
    "C61_sequence",
    "C61_modes",
    "C61_recursion"
   ],
   "note": "C61_recursion spells out frec bit by bit."
  },
  {
   "property": "C62",
   "status": "proved",
   "theorems": [
    "C62_setOneBit",
    "C62_unit_vector"
   ],
   "note": ""
  },
  {
   "property": "C63",
   "status": "proved",
   "theorems": [
    "C63_setUpParam",
    "C63_two_words"
   ],
   "note": "C63_two_words: size 2 (mexp below 256) is a division by zero."
  },
  {
   "property": "C64",
   "status": "partial",
   "theorems": [
    "C64_simd_partial",
    "C64_limit",
    "C64_exact_refuted",
    "C64_recurrent",
    "C64_words"
   ],
   "note": "The call returns, the value r is a dimension for which all phases are equidistributed, and the greatest one lies in r .. r+L-1 (L = 4 or 2 words per 128-bit word) and is r if L divides it. Exactness is false (C64_exact_refuted): only full blocks are measured, values above the greatest multiple of L below mexp/v are never reported (C64_limit), so the sum of the defects is at least mexp mod L."
  },
  {
   "property": "C65",
   "status": "partial",
   "theorems": [
    "C65_linear",
    "C65_output",
    "C65_dimension",
    "C65_defined",
    "C65_state",
    "C65_isZero",
    "C65_invertible",
    "C65_not_invertible",
    "C65_seed",
    "C65_new",
    "C65_size",
    "C65_isZero_refuted"
   ],
   "note": "Everything but isZero in weight mode 1 is proved. There isZero tests previous.u[1], the upper half of the half that is not used: it is true of some states that are not zero and false of some that are (C65_isZero_refuted); C65_isZero is for weight mode 2, the one the searches use. bitSize() is the dimension only in weight mode 2 (C65_dimension)."
  },
  {
   "property": "C66",
   "status": "proved",
   "theorems": [
    "C66_sequence",
    "C66_modes",
    "C66_recursion"
   ],
   "note": "dlung and dnew are spelled out bit by bit in C66_recursion."
  },
  {
   "property": "C67",
   "status": "proved",
   "theorems": [
    "C67_setOneBit",
    "C67_unit_vector",
    "C67_setUpParam",
    "C67_two_words"
   ],
   "note": "C67_two_words: with two words (mexp 232 to 335) setUpParam divides by zero. A fixed sl1 must be from 0 to 63; it is not checked by the program."
  },
  {
   "property": "C68",
   "status": "proved",
   "theorems": [
    "C68_doubles",
    "C68_affine",
    "C68_seed"
   ],
   "note": "For weight mode 2; strip is the state without the prefix. C68_seed: seeding an object with the prefix gives such a state."
  },
  {
   "property": "C69",
   "status": "proved",
   "theorems": [
    "C69_fixpoint",
    "C69_throws",
    "C69_certified_period",
    "C69_quotient"
   ],
   "note": "NTL::XGCD, NTL::kernel and calc_1pos by their specifications; parity search with a total shift by -1 (see C31). The certified period needs of the quotient q only that it is prime to f, so it holds for the polynomial of getLCMPoly that the program uses (see C74). C69_fixpoint (the value is the lung of the unique fixed point) needs that f q annihilates the state of setConst, which holds for q = characteristic polynomial / f (C69_quotient). sl1 > 0."
  },
  {
   "property": "C70",
   "status": "partial",
   "theorems": [
    "C70_dsfmt_equi_partial",
    "C70_limit",
    "C70_exact_refuted",
    "C70_recurrent",
    "C70_words"
   ],
   "note": "The call returns, the value r is a dimension for which both phases are equidistributed, and the greatest one is r or r+1, and r if it is even. Exactness is false (C70_exact_refuted): only full blocks of two words are measured, an odd dimension at the limit mexp/v is never reported (C70_limit), so for an odd mexp the sum of the defects is at least 1."
  },
  {
   "property": "C71",
   "status": "proved",
   "theorems": [
    "C71_getLCMPoly_dsfmt",
    "C71_annihilates_all",
    "C71_getLCMPoly_sfmt"
   ],
   "note": "Weight mode 2 (dSFMT) and 4 (sfmt), sl1 > 0 and pos1 no multiple of size, as setUpParam gives them. Annihilation of every state needs that the lowest lung bit determines the state (hypothesis of C71_annihilates_all); the text of the property says so."
  },
  {
   "property": "C72",
   "status": "proved",
   "theorems": [
    "C72_anni_dsfmt",
    "C72_anni_sfmt",
    "C72_measure_dsfmt",
    "C72_measure_sfmt"
   ],
   "note": "sfmt in start mode 0, the mode of the constructor. The measurement theorems join anni to C70 and C64."
  },
  {
   "property": "C73",
   "status": "proved",
   "theorems": [
    "C73_sfmtdc"
   ],
   "note": "The calls of NTL (MinPolySeq, kernel) are oracles that meet their documentation. Of the program, search() is modelled, without the header, time stamps and the parsing of options. That the period of a certified state is a multiple of 2^mexp - 1 needs that 2^mexp - 1 is prime, which is proved here for 607 and 1279 of the exponents (C22)."
  },
  {
   "property": "C74",
   "status": "proved",
   "theorems": [
    "C74_dsfmtdc"
   ],
   "note": "The calls of NTL (MinPolySeq, kernel, XGCD) are oracles that meet their documentation. Of the program, search() is modelled, without the header, time stamps and the parsing of options (which accepts any number for the fixed shift; 0 and values from 64 on are outside the theorem). delta52 is measured by C70, so an odd dimension at the limit counts as one less. That 2^mexp - 1 is prime is proved here for 521 and 1279 of the exponents (C22)."
  },
  {
   "property": "C75",
   "status": "proved",
   "theorems": [
    "C75_mt2",
    "C75_line"
   ],
   "note": "MinPolySeq of NTL and calc_1pos are oracles that meet their specification; loops are fuelled, and the theorem says what the parameter numbers looked like if the fuel did not suffice. The parsing of the options, the header and the verbose output are not modelled. That 2^mexp - 1 is prime is proved here for 521, 607 and 1279 of the exponents the program accepts (C22)."
  },
  {
   "property": "C76",
   "status": "proved",
   "theorems": [
    "C76_mtgp32dc",
    "C76_line",
    "C76_distinct"
   ],
   "note": "MinPolySeq of NTL and calc_1pos are oracles that meet their specification; the search loop is fuelled, and the theorem says what the parameter numbers looked like if the fuel did not suffice. The parsing of the options, the header line, the verbose output and the sha1 digest are not modelled. Of the exponents the program accepts none has 2^mexp - 1 proved prime here; the hypothesis is met by 521, 607 and 1279 (C22)."
  },
  {
   "property": "C77",
   "status": "proved",
   "theorems": [
    "C77_search",
    "C77_returns",
    "C77_excess",
    "C77_delta_refuted"
   ],
   "note": "MinPolySeq, kernel of NTL and calc_1pos are oracles that meet their specification. The statement about the state and delta has the hypothesis that searchParity does not destroy the part of the state that belongs to the factor (alive); C77_delta_refuted shows that delta is not the defect relative to the Mersenne exponent. What verbose prints is not modelled."
  },
  {
   "property": "C78",
   "status": "proved",
   "theorems": [
    "C78_lines",
    "C78_count",
    "C78_singular"
   ],
   "note": "MinPolySeq, kernel of NTL and calc_1pos are oracles that meet their specification. The theorem is about runs that return; with verbose the search also changes the masks by getParamString, this is not modelled. The claim about delta has the condition that the parity vector has an odd number of ones (otherwise storing it into the state may destroy the component); nothing beside position, mata and the factor is claimed for singular recursions. The header and the parsing of the options are not modelled."
  },
  {
   "property": "C79",
   "status": "proved",
   "theorems": [
    "C79_reads",
    "C79_period",
    "C79_equidist",
    "C79_agrees",
    "C79_usage_order_refuted"
   ],
   "note": "MinPolySeq of NTL and calc_1pos are oracles that meet their specification; strtoull and the number output of the C++ library are modelled from their documentation. A negative mexp or position is not followed (it counts as undefined). C79_agrees needs an invertible recursion and a parity vector with an odd number of ones, as C78 does. C79_usage_order_refuted: the usage message names another order."
  },
  {
   "property": "C80",
   "status": "proved",
   "theorems": [
    "C80_test_period",
    "C80_complete",
    "C80_text",
    "C80_short_refuted"
   ],
   "note": "MinPolySeq of NTL is an oracle that meets its specification; weight and the factorisation by hasFactorOfDegree are computed. strtoul is taken with 64-bit unsigned long; strtoul and the number output are modelled from their documentation. The words u[1..3] of the seed that the program leaves uninitialised are an arbitrary parameter. A negative mexp is not followed (it counts as undefined). mexp < 256 and a pos1 that is a multiple of the number of words are outside the hypotheses."
  },
  {
   "property": "C81",
   "status": "proved",
   "theorems": [
    "C81_calc_period",
    "C81_complete",
    "C81_bits",
    "C81_text"
   ],
   "note": "MinPolySeq of NTL is an oracle that meets its specification; the factorisation by hasFactorOfDegree is computed. strtoul is taken with 64-bit unsigned long; strtoul, strtoull and the number output are modelled from their documentation. The words u[1..3] of the seed that the program leaves uninitialised are an arbitrary parameter. A mexp less than 128 is not followed (it counts as undefined); mexp < 232 and sl1 = 0 are outside the hypotheses."
  },
  {
   "property": "C82",
   "status": "proved",
   "theorems": [
    "C82_calc_fixpoint",
    "C82_calc_parity",
    "C82_pipeline"
   ],
   "note": "Without the option -c. NTL calls and calc_1pos are assumed to meet their specifications. The fixed point is the lung of some state fixed in the component; it is not claimed to be the only such lung."
  },
  {
   "property": "C83",
   "status": "proved",
   "theorems": [
    "C83_sfmt",
    "C83_same",
    "C83_dsfmt"
   ],
   "note": "NTL calls and calc_1pos are assumed to meet their specifications. getopt_long is not modelled: seed and -r are arguments of the model. For 32, 64 and 52 bits the dimensions are the greatest ones up to the restriction of C64 and C70 (less than the number of words in 128 bits below the greatest). The tables of -v are always part of the result of the model. A negative mexp (dSFMTdc: mexp < 128) is not followed."
  },
  {
   "property": "C84",
   "status": "proved",
   "theorems": [
    "C84_calc_parity",
    "C84_check"
   ],
   "note": "NTL calls and calc_1pos are assumed to meet their specifications. getopt is not modelled: -c is an argument of the model, -v is left out. A negative mexp is not followed. mexp must not be a multiple of 128; otherwise an exception of searchParity is not excluded (C63)."
  },
  {
   "property": "C85",
   "status": "proved",
   "theorems": [
    "C85_sequence",
    "C85_init",
    "C85_init_by_array_partial",
    "C85_init_by_array_refuted",
    "C85_period",
    "C85_seeds",
    "C85_published",
    "C85_floats",
    "C85_ranges",
    "C85_floatOC_refuted",
    "C85_Tiny32_linear",
    "C85_Tiny32_isZero",
    "C85_test_equidist"
   ],
   "note": "Full statement for keys of length INT_MAX is false (signed overflow, C85_init_by_array_refuted); generate_floatOC advances the state twice (C85_floatOC_refuted). Floating point results are modelled as exact rationals."
  },
  {
   "property": "C86",
   "status": "partial",
   "theorems": [
    "C86_linear",
    "C86_invertible",
    "C86_period",
    "C86_init",
    "C86_init_by_array_partial",
    "C86_init_by_array_refuted",
    "C86_seeds_partial",
    "C86_Tiny64",
    "C86_doubles",
    "C86_ranges"
   ],
   "note": "C86_init_by_array_partial excludes keys of INT_MAX words, for which the statement is refuted (signed overflow of key_length + 1). C86_seeds_partial: different seeds give different 128-bit status words (the certified state apart); that they differ in the 127 bits that count is not proved. The rest in full; floating point results are modelled by exact rationals."
  },
  {
   "property": "C87",
   "status": "proved",
   "theorems": [
    "C87_minpoly_32",
    "C87_minpoly_64",
    "C87_period_u32",
    "C87_period_u64",
    "C87_is_irreducible",
    "C87_is_prime",
    "C87_table_refuted",
    "C87_isPrime_refuted"
   ],
   "note": "The claim about the table is stated as two refutations (C87_table_refuted, C87_isPrime_refuted). MinPolySeq enters by its specification. The RTiny32 objects are the subject of C88; has_factor is not modelled."
  },
  {
   "property": "C88",
   "status": "proved",
   "theorems": [
    "C88_seed",
    "C88_period",
    "C88_default",
    "C88_reducible",
    "C88_nonprime",
    "C88_is_irreducible",
    "C88_is_prime2"
   ],
   "note": "MinPolySeq enters by its specification. Not modelled: setUpParam and getParamString of RTiny32, has_factor and RLittle32."
  }
 ]
}