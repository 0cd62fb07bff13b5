{
 "C01": {
  "status": "proved",
  "note": "16-, 32- and 64-bit versions, every word."
 },
 "C02": {
  "status": "proved",
  "note": "32- and 64-bit versions, every word and bit position, involution."
 },
 "C03": {
  "status": "partial",
  "note": "16 bit: full. 32/64 bit: the strict claim is refuted (signed negation of INT_MIN for the word with only the top bit set); proved for every other word, and for every word when negation wraps."
 },
 "C04": {
  "status": "proved",
  "note": "Termination and value for n >= 1, divergence for 0."
 },
 "C05": {
  "status": "proved",
  "note": "Range, surjectivity, cyclicity, exit, and overflow outside the stated condition."
 },
 "C06": {
  "status": "proved",
  "note": "Any size up to 2^30 (beyond that the loop variable of the code overflows), any previous content; linearity on a zeroed table."
 },
 "C07": {
  "status": "partial",
  "note": "The claim without undefined behaviour is refuted: fromGF2Vec always evaluates a shift by -1. With an arbitrary value for that unused shift the round trips are proved."
 },
 "C08": {
  "status": "proved",
  "note": "Every word, width, position below the width, value."
 },
 "C11": {
  "status": "proved",
  "note": "Any previous content of the object, any scalar seed, key or string seed, any number of calls."
 },
 "C12": {
  "status": "proved",
  "note": "Any history of seeding and getter calls; scalar, array and string seeding."
 },
 "C13": {
  "status": "proved",
  "note": "Both generators; uninitialised cells and out-of-bounds indices are a distinct outcome of the model."
 },
 "C14": {
  "status": "proved",
  "note": "Both tempering functions, on all words."
 },
 "C15": {
  "status": "proved",
  "note": "Any previous content of the object, any seed, key or string seed, any number of calls."
 },
 "C16": {
  "status": "proved",
  "note": "Any interleaving of getter calls after any seeding."
 },
 "C17": {
  "status": "proved",
  "note": "State not zero for ever, no n consecutive zero outputs; transition injective, onto and linear on the 19937-bit state."
 },
 "C18": {
  "status": "proved",
  "note": "Every width, mask and start value."
 },
 "C19": {
  "status": "proved",
  "note": "Refinement for every interleaving of construction, copy, seed, reseed and the three getters."
 },
 "C32": {
  "status": "proved",
  "note": "For every generator that satisfies the contract linear_gen (dimension, width, state arbitrary). Reductions run with an explicit iteration bound. calc_1pos enters through pos_spec, proved for the 16-bit function and, where signed negation wraps, for 32 and 64 bits. Instance: the exact k(1)..k(32) of xorshift-2.cpp."
 },
 "C33": {
  "status": "partial",
  "note": "Full for any calc_1pos meeting pos_spec (16 bit; 32/64 bit with wrapping negation): terminates within the stated bound, no throw, no index error. With the standard's calc_1pos the claim is refuted for 32/64-bit outputs: the run is undefined for every linear generator whose leading bit is not constantly zero (-INT_MIN)."
 },
 "C34": {
  "status": "proved",
  "note": "Both sums, non-negativity of every term, untouched entries."
 },
 "C35": {
  "status": "proved",
  "note": "Occurrence counts over one period and over the full state space, and maximality."
 },
 "C36": {
  "status": "proved",
  "note": "Later state of the same orbit (invertible transition); any two non-zero states (maximal period)."
 },
 "C42": {
  "status": "partial",
  "note": "Contract proved for all samples and all parameters. 'Bijective for all parameters of the search' is refuted (a zero shift count); exact characterisation of the bijective parameters proved."
 },
 "C48": {
  "status": "partial",
  "note": "Refuted: xorshift128_init_by_array never writes its local array to the object, the key has no influence."
 },
 "C49": {
  "status": "proved",
  "note": "Result of the second call is never a normal return."
 },
 "C50": {
  "status": "proved",
  "note": "xorshift128_init and the C++ seed functions."
 },
 "C09": {
  "status": "proved",
  "note": "Every polynomial, with and without line breaks; the zero polynomial prints one digit 0 and degree -1."
 },
 "C10": {
  "status": "partial",
  "note": "Proved for every pair that is not (0,0), with every aliasing of the result variable. For two zero polynomials the claim is refuted: the division by the zero gcd terminates the program."
 },
 "C20": {
  "status": "proved",
  "note": "Every linear generator, state, bit position below the output width and state size bound; NTL's MinPolySeq enters as a parameter with its documented behaviour (an instance is constructed)."
 },
 "C21": {
  "status": "partial",
  "note": "Proved for every degree, polynomial and complete factor list except the polynomial X with degree 1, for which the claim is refuted."
 },
 "C22": {
  "status": "partial",
  "note": "isMexp(d) is exact for every d <= 607 and sound for d <= 4252 (Lucas-Lehmer run in Coq on Uint63 limbs); isPrime(poly) is sound for degrees up to 4252, and for greater degrees under the hypothesis that the table entry is a Mersenne exponent. Missing: primality of 2^d-1 for the entries from 4253 on. Completeness up to the largest entry fails if 2^24036583-1 is prime (C22_24036583)."
 },
 "C24": {
  "status": "partial",
  "note": "Proved for every non-zero polynomial and every degree >= 0; for a negative degree termination is refuted."
 },
 "C25": {
  "status": "proved",
  "note": "Both readers (isPrime with strings, AlgorithmPrimitivity with a string stream); every list of strings of any length."
 },
 "C26": {
  "status": "proved",
  "note": "Mersenne case for every n with 2^n-1 prime; table case for all 17 shipped tables (C26_shipped) and for any complete table."
 },
 "C27": {
  "status": "proved",
  "note": "Every family of linear generators, parameter source, number of tries; for any primitivity test that decides (C26)."
 },
 "C28": {
  "status": "proved",
  "note": "Every family, parameter source and number of tries; also that every period of the seeded state is a multiple of 2^mexp-1 when that is prime."
 },
 "C29": {
  "status": "proved",
  "note": "Every linear generator, state and polynomial."
 },
 "C30": {
  "status": "proved",
  "note": "Every linear generator and state; also minimality of the result."
 },
 "C37": {
  "status": "proved",
  "note": "Every linear generator with invertible transition and a state whose output has full linear complexity, simple irreducible factor; without these hypotheses C37_state describes the state that is analysed."
 },
 "C23": {
  "status": "proved",
  "note": "All 17 tables, copied as strings; primality by Pocklington certificates checked in Coq."
 },
 "C38": {
  "status": "proved",
  "note": "Acceptance of every linear generator, exact meaning of acceptance and rejection, the xorshift samples with any parameters; a theorem shows that acceptance does not imply linearity."
 },
 "C51": {
  "status": "proved",
  "note": "Assumes the documented behaviour of MinPolySeq and that signed negation in calc_1pos wraps. Printing is modelled as the list of results. Any exception leaves the loop of main in the model (the code catches underflow_error only; no other is thrown in the proved runs)."
 },
 "C52": {
  "status": "proved",
  "note": "The period is certified by computation in the kernel with the proved factorisation of 2^128-1. Under the strict reading of signed overflow the run of xorshift-2 is undefined (refuted theorem)."
 },
 "C39": {
  "status": "proved",
  "note": "Arbitrary generator with the stated laws of setTemperingPattern and an arbitrary defect; windows of 31 bits and more are undefined behaviour (theorem)."
 },
 "C40": {
  "status": "partial",
  "note": "The whole search is proved for up to seven parameters. The sentence about search_best_temper itself is refuted (it also returns candidates that are not minimal; operator() filters them), eight parameters are undefined behaviour, and for generators that need setUpTempering the defect measured is stale (refuted)."
 },
 "C41": {
  "status": "proved",
  "note": "Arbitrary linear generator with tempering that keeps the recursion; instance: TinyMT32. Assumes the documented behaviour of MinPolySeq."
 },
 "C43": {
  "status": "partial",
  "note": "Linearity, output, invertibility, zero test, tempering searches, period and defect of the published parameters proved. The sentence about clone() is refuted: the copy constructor drops reverse_bit_flag, hence the search from the least significant bits measures the wrong defect."
 },
 "C53": {
  "status": "proved",
  "note": "Numbers of 2^31 and more repeat (theorem); the program does not use them."
 },
 "C54": {
  "status": "proved",
  "note": "Assumes the documented behaviour of MinPolySeq and that signed negation in calc_1pos wraps. Option parsing and printing are not modelled: the output is the list of results."
 },
 "C46": {
  "status": "partial",
  "note": "All operations proved for every word; calc_1pos negates INT64_MIN for two kinds of words (refuted under the strict reading, right when negation wraps). Shift counts and bit positions outside the range are undefined behaviour (theorems); the byte shifts are undefined for the count 0. Little endian layout of the union is assumed."
 },
 "C47": {
  "status": "proved",
  "note": "SFMT and dSFMT. The functions read state[0] / lung only, so they are modelled on that word."
 },
 "C44": {
  "status": "partial",
  "note": "Everything but isZero: linear contract on the mexp bits, output, equality of states, invertibility, constructors and setUpParam. isZero is refuted both ways for all parameters (it masks the newest word instead of the oldest); what it decides is proved. Exponents divisible by 32 make the constructor shift by 32 (undefined)."
 },
 "C55": {
  "status": "proved",
  "note": "Every 32-bit seed, every length, any previous memory content of the library object."
 },
 "C56": {
  "status": "proved",
  "note": "The full period is a hypothesis of C56_dimension; C56_mt127 exhibits parameters for 127 bits that have it. The period of MT19937 itself is not certified."
 },
 "C45": {
  "status": "partial",
  "note": "The claim is refuted: state[idx] = 1 << r shifts an int. Proved for the lower 31 bits of each word; for bit 31 exactly 33 bits are set (INT_MIN sign-extended), above that the shift is undefined."
 },
 "C57": {
  "status": "proved",
  "note": "Invertibility is for middle positions other than 0 (setUpParam may also choose 0)."
 },
 "C31": {
  "status": "partial",
  "note": "Read strictly, setBitOfPos and fromGF2Vec shift by -1 in every call, so searchParity never returns (C31_strict_never, C31_strict_refuted). For implementations where that shift yields any value: result non-zero, certified states have a component in the large part and period divisible by 2^mexp-1 (C31_certifies_partial); the search returns if parity words determine the state and fewer than w dimensions lie beside the large part (C31_returns_partial; without observability it can loop, C31_returns_refuted); it throws only if no certificate exists (C31_throw_partial). NTL::kernel and calc_1pos by their specifications. RMT64 meets the contract (C31_rmt_contract); the search on it ends in a certificate or in the undefined setOneBit (C31_rmt_partial), always the latter with more than 32 bits beside the Mersenne exponent, e.g. mexp 521 (C31_rmt_undefined). On sfmt with parameters of setUpParam and weight mode 4 it always returns a certificate (C31_sfmt_contract, C31_sfmt, C31_sfmt_calc_1pos). The same on dSFMT in weight mode 2 with sl1 > 0 (C31_dsfmt_contract, C31_dsfmt)."
 },
 "C58": {
  "status": "partial",
  "note": "Everything but isZero is proved; isZero is wrong: it masks the newest instead of the oldest word, with a member that is never initialised (C58_isZero_refuted); C58_isZero_partial says what it decides."
 },
 "C59": {
  "status": "proved",
  "note": "The draws are arguments of the model. C59_singular: the drawn table may make the recursion non-invertible, although single bits are guarded. C59_exit: sizes below 8 (and a few above powers of two) exit the program."
 },
 "C60": {
  "status": "proved",
  "note": "C60_fresh_refuted: an object of the one-argument constructor has shift counts 0, generate() is undefined before setUpParam."
 },
 "C61": {
  "status": "proved",
  "note": "C61_recursion spells out frec bit by bit."
 },
 "C62": {
  "status": "proved",
  "note": ""
 },
 "C63": {
  "status": "proved",
  "note": "C63_two_words: size 2 (mexp below 256) is a division by zero."
 },
 "C64": {
  "status": "partial",
  "note": "The call returns, the value r is a dimension for which all phases are equidistributed, and the greatest one lies in r .. r+L-1 (L = 4 or 2 words per 128-bit word) and is r if L divides it. Exactness is false (C64_exact_refuted): only full blocks are measured, values above the greatest multiple of L below mexp/v are never reported (C64_limit), so the sum of the defects is at least mexp mod L."
 },
 "C65": {
  "status": "partial",
  "note": "Everything but isZero in weight mode 1 is proved. There isZero tests previous.u[1], the upper half of the half that is not used: it is true of some states that are not zero and false of some that are (C65_isZero_refuted); C65_isZero is for weight mode 2, the one the searches use. bitSize() is the dimension only in weight mode 2 (C65_dimension)."
 },
 "C66": {
  "status": "proved",
  "note": "dlung and dnew are spelled out bit by bit in C66_recursion."
 },
 "C67": {
  "status": "proved",
  "note": "C67_two_words: with two words (mexp 232 to 335) setUpParam divides by zero. A fixed sl1 must be from 0 to 63; it is not checked by the program."
 },
 "C68": {
  "status": "proved",
  "note": "For weight mode 2; strip is the state without the prefix. C68_seed: seeding an object with the prefix gives such a state."
 },
 "C69": {
  "status": "proved",
  "note": "NTL::XGCD, NTL::kernel and calc_1pos by their specifications; parity search with a total shift by -1 (see C31). The certified period needs of the quotient q only that it is prime to f, so it holds for the polynomial of getLCMPoly that the program uses (see C74). C69_fixpoint (the value is the lung of the unique fixed point) needs that f q annihilates the state of setConst, which holds for q = characteristic polynomial / f (C69_quotient). sl1 > 0."
 },
 "C70": {
  "status": "partial",
  "note": "The call returns, the value r is a dimension for which both phases are equidistributed, and the greatest one is r or r+1, and r if it is even. Exactness is false (C70_exact_refuted): only full blocks of two words are measured, an odd dimension at the limit mexp/v is never reported (C70_limit), so for an odd mexp the sum of the defects is at least 1."
 },
 "C71": {
  "status": "proved",
  "note": "Weight mode 2 (dSFMT) and 4 (sfmt), sl1 > 0 and pos1 no multiple of size, as setUpParam gives them. Annihilation of every state needs that the lowest lung bit determines the state (hypothesis of C71_annihilates_all); the text of the property says so."
 },
 "C72": {
  "status": "proved",
  "note": "sfmt in start mode 0, the mode of the constructor. The measurement theorems join anni to C70 and C64."
 },
 "C73": {
  "status": "proved",
  "note": "The calls of NTL (MinPolySeq, kernel) are oracles that meet their documentation. Of the program, search() is modelled, without the header, time stamps and the parsing of options. That the period of a certified state is a multiple of 2^mexp - 1 needs that 2^mexp - 1 is prime, which is proved here for 607 and 1279 of the exponents (C22)."
 },
 "C74": {
  "status": "proved",
  "note": "The calls of NTL (MinPolySeq, kernel, XGCD) are oracles that meet their documentation. Of the program, search() is modelled, without the header, time stamps and the parsing of options (which accepts any number for the fixed shift; 0 and values from 64 on are outside the theorem). delta52 is measured by C70, so an odd dimension at the limit counts as one less. That 2^mexp - 1 is prime is proved here for 521 and 1279 of the exponents (C22)."
 },
 "C75": {
  "status": "proved",
  "note": "MinPolySeq of NTL and calc_1pos are oracles that meet their specification; loops are fuelled, and the theorem says what the parameter numbers looked like if the fuel did not suffice. The parsing of the options, the header and the verbose output are not modelled. That 2^mexp - 1 is prime is proved here for 521, 607 and 1279 of the exponents the program accepts (C22)."
 },
 "C76": {
  "status": "proved",
  "note": "MinPolySeq of NTL and calc_1pos are oracles that meet their specification; the search loop is fuelled, and the theorem says what the parameter numbers looked like if the fuel did not suffice. The parsing of the options, the header line, the verbose output and the sha1 digest are not modelled. Of the exponents the program accepts none has 2^mexp - 1 proved prime here; the hypothesis is met by 521, 607 and 1279 (C22)."
 },
 "C77": {
  "status": "proved",
  "note": "MinPolySeq, kernel of NTL and calc_1pos are oracles that meet their specification. The statement about the state and delta has the hypothesis that searchParity does not destroy the part of the state that belongs to the factor (alive); C77_delta_refuted shows that delta is not the defect relative to the Mersenne exponent. What verbose prints is not modelled."
 },
 "C78": {
  "status": "proved",
  "note": "MinPolySeq, kernel of NTL and calc_1pos are oracles that meet their specification. The theorem is about runs that return; with verbose the search also changes the masks by getParamString, this is not modelled. The claim about delta has the condition that the parity vector has an odd number of ones (otherwise storing it into the state may destroy the component); nothing beside position, mata and the factor is claimed for singular recursions. The header and the parsing of the options are not modelled."
 },
 "C79": {
  "status": "proved",
  "note": "MinPolySeq of NTL and calc_1pos are oracles that meet their specification; strtoull and the number output of the C++ library are modelled from their documentation. A negative mexp or position is not followed (it counts as undefined). C79_agrees needs an invertible recursion and a parity vector with an odd number of ones, as C78 does. C79_usage_order_refuted: the usage message names another order."
 },
 "C80": {
  "status": "proved",
  "note": "MinPolySeq of NTL is an oracle that meets its specification; weight and the factorisation by hasFactorOfDegree are computed. strtoul is taken with 64-bit unsigned long; strtoul and the number output are modelled from their documentation. The words u[1..3] of the seed that the program leaves uninitialised are an arbitrary parameter. A negative mexp is not followed (it counts as undefined). mexp < 256 and a pos1 that is a multiple of the number of words are outside the hypotheses."
 },
 "C81": {
  "status": "proved",
  "note": "MinPolySeq of NTL is an oracle that meets its specification; the factorisation by hasFactorOfDegree is computed. strtoul is taken with 64-bit unsigned long; strtoul, strtoull and the number output are modelled from their documentation. The words u[1..3] of the seed that the program leaves uninitialised are an arbitrary parameter. A mexp less than 128 is not followed (it counts as undefined); mexp < 232 and sl1 = 0 are outside the hypotheses."
 },
 "C82": {
  "status": "proved",
  "note": "Without the option -c. NTL calls and calc_1pos are assumed to meet their specifications. The fixed point is the lung of some state fixed in the component; it is not claimed to be the only such lung."
 },
 "C83": {
  "status": "proved",
  "note": "NTL calls and calc_1pos are assumed to meet their specifications. getopt_long is not modelled: seed and -r are arguments of the model. For 32, 64 and 52 bits the dimensions are the greatest ones up to the restriction of C64 and C70 (less than the number of words in 128 bits below the greatest). The tables of -v are always part of the result of the model. A negative mexp (dSFMTdc: mexp < 128) is not followed."
 },
 "C84": {
  "status": "proved",
  "note": "NTL calls and calc_1pos are assumed to meet their specifications. getopt is not modelled: -c is an argument of the model, -v is left out. A negative mexp is not followed. mexp must not be a multiple of 128; otherwise an exception of searchParity is not excluded (C63)."
 },
 "C85": {
  "status": "proved",
  "note": "Full statement for keys of length INT_MAX is false (signed overflow, C85_init_by_array_refuted); generate_floatOC advances the state twice (C85_floatOC_refuted). Floating point results are modelled as exact rationals."
 },
 "C86": {
  "status": "partial",
  "note": "C86_init_by_array_partial excludes keys of INT_MAX words, for which the statement is refuted (signed overflow of key_length + 1). C86_seeds_partial: different seeds give different 128-bit status words (the certified state apart); that they differ in the 127 bits that count is not proved. The rest in full; floating point results are modelled by exact rationals."
 },
 "C87": {
  "status": "proved",
  "note": "The claim about the table is stated as two refutations (C87_table_refuted, C87_isPrime_refuted). MinPolySeq enters by its specification. The RTiny32 objects are the subject of C88; has_factor is not modelled."
 },
 "C88": {
  "status": "proved",
  "note": "MinPolySeq enters by its specification. Not modelled: setUpParam and getParamString of RTiny32, has_factor and RLittle32."
 }
}