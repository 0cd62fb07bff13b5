{"id": "C01", "title": "count_bit is the population count", "statement": "count_bit(x) for uint16_t, uint32_t and uint64_t returns exactly the number of one bits of x.", "quantifier": "every 16-, 32- and 64-bit word", "why_tests_cant": "2^64 inputs; a wrong mask or fold constant can be wrong on a sparse set of words that sampling misses.", "anchors": ["include/MTToolBox/util.hpp: count_bit(uint16_t), count_bit(uint32_t), count_bit(uint64_t)"]}
{"id": "C02", "title": "reverse_bit reverses the bit order", "statement": "reverse_bit(x) for uint32_t and uint64_t moves bit i to bit w-1-i for every i and nothing else; applying it twice gives x back.", "quantifier": "every 32- and 64-bit word and every bit position", "why_tests_cant": "2^64 inputs; equality on samples does not give the bit permutation or the involution.", "anchors": ["include/MTToolBox/util.hpp: reverse_bit(uint32_t), reverse_bit(uint64_t)"]}
{"id": "C03", "title": "calc_1pos finds the lowest one bit, counted from the MSB", "statement": "calc_1pos(x) for 16-, 32- and 64-bit words returns -1 for x = 0 and otherwise the position, counted from the most significant bit (MSB = 0), of the lowest one bit of x, without executing an operation whose result C++ leaves undefined.", "quantifier": "every 16-, 32- and 64-bit word", "why_tests_cant": "2^64 inputs, and the undefined behaviour (negating the most negative signed value when only the top bit is set) gives the expected answer on usual compilers, so no test can see it.", "anchors": ["include/MTToolBox/util.hpp: calc_1pos(uint16_t), calc_1pos(uint32_t), calc_1pos(uint64_t)"]}
{"id": "C04", "title": "floor2p is the largest power of two not above its argument", "statement": "For n >= 1 floor2p(n) terminates and returns the unique power of two r with r <= n < 2r; for n = 0 the call never returns.", "quantifier": "every n of the argument type", "why_tests_cant": "all argument values; non-termination cannot be established by a test.", "anchors": ["include/MTToolBox/util.hpp: floor2p"]}
{"id": "C05", "title": "get_range maps into the requested interval", "statement": "get_range(input,start,end) with start <= end returns a value in [start,end], every value of the interval is returned for some input, and consecutive inputs run cyclically through the interval.  With end < start the process exits.  The result is defined whenever end-start+1 fits in an int.", "quantifier": "every 64-bit input and every pair of int bounds", "why_tests_cant": "2^128 argument combinations including the wrap-around corner cases of int arithmetic.", "anchors": ["include/MTToolBox/util.hpp: get_range"]}
{"id": "C06", "title": "fill_table builds the GF(2)-linear lookup table", "statement": "After fill_table(dist, src, size) on a zeroed table, entry i is the XOR of the src[k] with bit k of i set, for every i < size; hence dist[i^j] = dist[i]^dist[j].  On a table that was not zeroed, the same XOR is accumulated on the previous content and entry 0 is left unchanged.", "quantifier": "every table size (power of two or not), every source vector, every previous table content", "why_tests_cant": "unbounded sizes and contents.", "anchors": ["include/MTToolBox/util.hpp: fill_table"]}
{"id": "C07", "title": "word <-> GF(2) vector conversions are inverse to each other", "statement": "toGF2Vec stores the bits of a word most significant first; fromGF2Vec(toGF2Vec(x)) = x for every word and toGF2Vec(fromGF2Vec(v)) = v for every vector of the word's length, without executing an operation whose result C++ leaves undefined.", "quantifier": "every word of every width, every GF(2) vector of that length", "why_tests_cant": "2^64 words; the loop of fromGF2Vec performs one shift by -1 after its last useful iteration, which a test cannot observe.", "anchors": ["include/MTToolBox/util.hpp: toGF2Vec, fromGF2Vec, setBitOfPos"]}
{"id": "C08", "title": "getBitOfPos / setBitOfPos behave like an array of bits", "statement": "For 0 <= pos < w: after setBitOfPos(&x,pos,b), getBitOfPos(x,pos) is the low bit of b and every other position is unchanged; getBitOfPos reads the bit of weight 2^pos and always returns 0 or 1.", "quantifier": "every word, width, position and value", "why_tests_cant": "all words times all positions.", "anchors": ["include/MTToolBox/util.hpp: getBitOfPos, setBitOfPos"]}
{"id": "C09", "title": "print_binary is a faithful rendering of the polynomial", "statement": "The digits written by print_binary, read in order with line breaks and separators removed, are exactly the coefficients of the polynomial from degree 0 up to its degree; two different polynomials never print the same text.", "quantifier": "every polynomial over GF(2)", "why_tests_cant": "unboundedly many polynomials.", "anchors": ["include/MTToolBox/util.hpp: print_binary"]}
{"id": "C10", "title": "LCM computes the least common multiple", "statement": "LCM(lcm,x,y) yields a polynomial that both x and y divide and that divides every common multiple, also when the result variable is one of the arguments.", "quantifier": "every pair of polynomials over GF(2), with and without aliasing of the output", "why_tests_cant": "unboundedly many polynomials.", "anchors": ["include/MTToolBox/util.hpp: LCM"]}
{"id": "C11", "title": "MersenneTwister produces the MT19937 sequence", "statement": "For every seed, the n-th value returned by getUint32/generate after seeding is the n-th output of MT19937: tempering of the word x_{624+n} of the recurrence x_{k+624} = x_{k+397} ^ (upper bit of x_k, lower 31 bits of x_{k+1}) A, although the class keeps the words in a 1024-entry circular buffer.", "quantifier": "every seed (scalar or array) and every number of calls", "why_tests_cant": "the sequence is unbounded; tests look at the first few thousand outputs of two seeds, while the circular index wraps and reuses slots forever.", "anchors": ["include/MTToolBox/MersenneTwister.hpp: MersenneTwister::next, getUint32, temper, seed, seed_array"]}
{"id": "C12", "title": "Seeding determines the whole future of MersenneTwister", "statement": "After seed(v), seed_array or seed(string) the outputs depend on the seed only, not on the previous use of the object; seed(v) depends on the low 32 bits of v only; array seeding gives the state of the reference init_by_array for every key of length >= 1.", "quantifier": "every object history, seed value, and key of any length >= 1", "why_tests_cant": "object histories and keys are unbounded.", "anchors": ["include/MTToolBox/MersenneTwister.hpp: seed, seed_array, reseed"]}
{"id": "C13", "title": "MersenneTwister never reads indeterminate memory", "statement": "The circular buffer has 1024 entries of which seeding writes 624; no call sequence ever reads an entry that was not written since construction, and all indices stay in bounds.", "quantifier": "every seed and every number of generated values", "why_tests_cant": "a read of uninitialised memory typically goes unnoticed in a test.", "anchors": ["include/MTToolBox/MersenneTwister.hpp: next, seed"]}
{"id": "C14", "title": "Tempering is a bijection", "statement": "The tempering functions of MersenneTwister and MersenneTwister64 are injective on 32-/64-bit words (so distinct state words give distinct outputs) and map onto all words.", "quantifier": "every 32-/64-bit word", "why_tests_cant": "2^64 words.", "anchors": ["include/MTToolBox/MersenneTwister.hpp: temper", "include/MTToolBox/MersenneTwister64.hpp: temper"]}
{"id": "C15", "title": "MersenneTwister64 produces the MT19937-64 sequence", "statement": "For every seed, the n-th value returned by getUint64/generate is the n-th output of MT19937-64 (word x_{312+n} of the recurrence, tempered); array seeding gives the state of the reference init_by_array64 for every key of length >= 1; earlier use of the object has no influence.", "quantifier": "every seed, every key, every history, every number of calls", "why_tests_cant": "unbounded sequence and histories.", "anchors": ["include/MTToolBox/MersenneTwister64.hpp: next, seed, seed_array, getUint64, temper"]}
{"id": "C16", "title": "The two widths of output are consistent", "statement": "MersenneTwister::getUint64 consumes exactly two 32-bit outputs, the first one in the high half; MersenneTwister64::getUint32 is the high half of exactly one 64-bit output, at every point of the sequence.", "quantifier": "every state and any interleaving of getUint32 and getUint64 calls", "why_tests_cant": "interleavings of calls are unbounded.", "anchors": ["include/MTToolBox/MersenneTwister.hpp: getUint64, getUint32", "include/MTToolBox/MersenneTwister64.hpp: getUint32, getUint64"]}
{"id": "C17", "title": "Seeding never reaches the degenerate state and the generator stays linear and invertible", "statement": "For every scalar seed and every key, the 19937-bit state of the Mersenne Twister after seeding is not zero, and it stays non-zero for ever: the state transition is a GF(2)-linear bijection of the 19937-bit state.", "quantifier": "every seed, every key, every number of calls", "why_tests_cant": "2^32 (2^64) seeds, unbounded keys and run lengths.", "anchors": ["include/MTToolBox/MersenneTwister.hpp: seed, seed_array, next", "include/MTToolBox/MersenneTwister64.hpp: seed, seed_array, next"]}
{"id": "C18", "title": "Sequential enumerates every value exactly once", "statement": "A Sequential<T>(mask) object (all-ones start) returns all 2^w values of T, each exactly once, in decreasing order of (value ^ mask); Sequential<T>(mask, seed) returns exactly the values v with (v ^ mask) <= seed, each once, in decreasing order.", "quantifier": "every width, mask and start value", "why_tests_cant": "2^64 values for 64-bit types.", "anchors": ["include/MTToolBox/Sequential.hpp: Sequential::next, generate, getUint32, getUint64"]}
{"id": "C19", "title": "Sequential signals exhaustion and restarts only on seed", "statement": "After the value for counter 0 has been returned, every further call throws underflow_error until the object is reseeded; seed(v) restarts the enumeration at v (truncated to T) with the same mask; a copy continues exactly like the original.", "quantifier": "every width, mask, start value and any interleaving of generate, seed and copy operations", "why_tests_cant": "unbounded operation sequences.", "anchors": ["include/MTToolBox/Sequential.hpp: next, seed, reseed, copy constructor"]}
{"id": "C20", "title": "minpoly returns the minimal polynomial of the output bit sequence", "statement": "For a GF(2)-linear generator whose state has at most stateSize bits, minpoly(poly,g,pos,stateSize) returns the minimal polynomial of the infinite sequence formed by bit pos of the successive outputs from g's current state, and advances g by exactly 2*stateSize outputs.", "quantifier": "every linear generator, state, bit position and state size bound (NTL's MinPolySeq as documented)", "why_tests_cant": "all generators and states; the infinite sequence.", "anchors": ["include/MTToolBox/period.hpp: minpoly"]}
{"id": "C21", "title": "isPrime with a factor list decides primitivity", "statement": "Given the complete list of prime factors of 2^degree-1, isPrime(poly,degree,list) is true exactly when poly is a primitive polynomial of that degree; with any list, a true answer implies degree and irreducibility.", "quantifier": "every polynomial, every degree, every factor list", "why_tests_cant": "unboundedly many polynomials and degrees.", "anchors": ["lib/period.cpp: isPrime(const GF2X&, int, const Vec<ZZ>&), isPrime(const GF2X&, int, const char*[])"]}
{"id": "C22", "title": "isMexp / isPrime(poly) are sound for Mersenne exponents", "statement": "isMexp(d) is true only for exponents d with 2^d-1 prime; isPrime(poly) is true only for primitive polynomials.  The exponent table is complete up to its largest entry.", "quantifier": "every degree and every polynomial", "why_tests_cant": "all degrees and polynomials; primality of 2^d-1 for large d.", "anchors": ["lib/period.cpp: mersenne_exponent, isMexp, isPrime(const GF2X&)"]}
{"id": "C23", "title": "The shipped prime factor tables are complete and prime", "statement": "Each table prime_factors2_n_1 (n = 128, 160, ..., 960) lists exactly the distinct prime divisors of 2^n-1.", "quantifier": "every table and every prime number p: p divides 2^n-1 iff p is in the table", "why_tests_cant": "the repository test only checks that entries divide; a missing or composite entry makes primitivity tests accept non-primitive polynomials and is invisible to such a test.", "anchors": ["lib/AlgorithmPrimitivity.cpp: prime_factors2_128_1 ... prime_factors2_960_1"]}
{"id": "C24", "title": "hasFactorOfDegree finds the large irreducible factor", "statement": "hasFactorOfDegree(poly,degree) terminates; when it returns true poly has been replaced by an irreducible factor of the original polynomial of exactly that degree; when it returns false there is no way to write the polynomial as an irreducible factor of that degree times factors of smaller degree.", "quantifier": "every non-zero polynomial and every degree", "why_tests_cant": "unboundedly many polynomials.", "anchors": ["lib/period.cpp: hasFactorOfDegree"]}
{"id": "C25", "title": "Decimal factor strings are read faithfully", "statement": "The NULL-terminated list of decimal strings is converted to exactly the integers they denote, for numbers of any length; conversion stops at the first non-digit.", "quantifier": "every list of strings", "why_tests_cant": "unbounded strings and lists.", "anchors": ["lib/period.cpp: isPrime(const GF2X&, int, const char*[])", "lib/AlgorithmPrimitivity.cpp: AlgorithmPrimitivity::AlgorithmPrimitivity"]}
{"id": "C26", "title": "AlgorithmPrimitivity decides full-period polynomials", "statement": "MersennePrimitivity(n,poly) with n a Mersenne exponent, and AlgorithmPrimitivity(prime_factors2_n_1)(n,poly) for each shipped table, return true exactly when poly is primitive of degree n.", "quantifier": "every polynomial, every Mersenne exponent, every shipped table", "why_tests_cant": "unboundedly many polynomials.", "anchors": ["lib/AlgorithmPrimitivity.cpp: AlgorithmPrimitivity::operator()"]}
{"id": "C27", "title": "A successful recursion search yields a maximal-period generator", "statement": "When AlgorithmRecursionSearch::start(n) returns true, the parameters left in the generator make every non-zero internal state have period exactly 2^bitSize-1, getMinPoly is the minimal polynomial of the recursion, getCount is the number of parameter sets tried; when it returns false none of the tried parameter sets (in order) passed the test.", "quantifier": "every linear generator family, every parameter sequence, every try count", "why_tests_cant": "periods of size 2^19937-1 and unbounded parameter sequences.", "anchors": ["include/MTToolBox/AlgorithmRecursionSearch.hpp: start, getCount, getMinPoly"]}
{"id": "C28", "title": "A successful reducible recursion search yields the large irreducible factor", "statement": "When AlgorithmReducibleRecursionSearch::start returns true, the reported irreducible factor is irreducible, has exactly the requested Mersenne degree, and divides the reported characteristic polynomial.", "quantifier": "every generator family, parameter sequence and try count", "why_tests_cant": "unbounded search.", "anchors": ["include/MTToolBox/AlgorithmReducibleRecursionSearch.hpp: start, getIrreducibleFactor, getCharacteristicPolynomial"]}
{"id": "C29", "title": "annihilate applies a polynomial of the transition to the state", "statement": "annihilate(rg,poly) replaces the state s of rg by poly(A) s, A being the state transition; in particular annihilating with an annihilating polynomial gives the zero state and annihilations compose by multiplication.", "quantifier": "every linear generator, state and polynomial", "why_tests_cant": "all generators, states and polynomials.", "anchors": ["include/MTToolBox/ReducibleGenerator.hpp: annihilate"]}
{"id": "C30", "title": "calcCharacteristicPolynomial accumulates the annihilator of the output", "statement": "The polynomial computed by calcCharacteristicPolynomial annihilates the recorded bit sequences and divides the characteristic polynomial of the state transition; with full degree it is the characteristic polynomial.", "quantifier": "every linear generator and state", "why_tests_cant": "all generators and states.", "anchors": ["include/MTToolBox/AlgorithmReducibleRecursionSearch.hpp: calcCharacteristicPolynomial"]}
{"id": "C31", "title": "The parity vector certifies the period", "statement": "When searchParity has collected the complete image of the kernel part, every internal state whose parity word has odd inner product with the returned parity vector has a component in the large irreducible part, hence a period that is a multiple of 2^mexp-1; the returned vector is non-zero.", "quantifier": "every reducible linear generator and every state", "why_tests_cant": "all states of thousands of bits.", "anchors": ["include/MTToolBox/AlgorithmCalculateParity.hpp: searchParity, search_parity_check_vector, addBase, calc_basis"]}
{"id": "C32", "title": "AlgorithmEquidistribution computes the dimension of equidistribution", "statement": "For every GF(2)-linear generator, every state and every v from bit_length down to 1, veq[v-1] set by get_all_equidist is the largest k such that the top v bits of k consecutive outputs take all 2^(kv) values when the state ranges over the space spanned by the orbit of the given state.", "quantifier": "every linear generator, dimension, output width, state and bit_length", "why_tests_cant": "the property speaks about all states and all 2^(kv) patterns; tests compare a handful of generators with published numbers.", "anchors": ["include/MTToolBox/AlgorithmEquidistribution.hpp: get_all_equidist, get_equidist_main, adjust, linear_generator_vector"]}
{"id": "C33", "title": "The equidistribution computation always terminates without throwing", "statement": "For every GF(2)-linear generator and state, constructor, get_all_equidist and get_equidist terminate, never raise the pivot or dimension exceptions, and never index the basis out of range.", "quantifier": "every linear generator, state, bit_length between 1 and the output width", "why_tests_cant": "termination and absence of exceptions for all generators cannot be tested.", "anchors": ["include/MTToolBox/AlgorithmEquidistribution.hpp: get_equidist_main, next_state, adjust"]}
{"id": "C34", "title": "The reported defect sums are consistent", "statement": "get_all_equidist returns the sum over v = 1..bit_length of floor(bitSize/v) - k(v), every term being non-negative; get_equidist returns k(bit_length) and the same sum over v = 1..bit_length-1.", "quantifier": "every linear generator and state", "why_tests_cant": "all generators and states.", "anchors": ["include/MTToolBox/AlgorithmEquidistribution.hpp: get_all_equidist, get_equidist"]}
{"id": "C35", "title": "For maximal-period generators the result is the classical k(v)", "statement": "If the generator's transition has maximal period, k(v) as returned is the largest k such that over the full state space every k-tuple of v-bit values occurs equally often (2^(bitSize-kv) times), i.e. over one period each non-zero tuple occurs 2^(bitSize-kv) times and the zero tuple once less.", "quantifier": "every maximal-period linear generator", "why_tests_cant": "period of length 2^19937-1.", "anchors": ["include/MTToolBox/AlgorithmEquidistribution.hpp: get_all_equidist"]}
{"id": "C36", "title": "Equidistribution results do not depend on the starting point of the orbit", "statement": "For a generator with invertible transition, computing the dimensions from any later state of the same orbit gives the same k(v) values, and for a maximal-period generator any two non-zero states give the same values.", "quantifier": "every linear generator, every state, every number of steps", "why_tests_cant": "all states.", "anchors": ["include/MTToolBox/AlgorithmEquidistribution.hpp: get_all_equidist"]}
{"id": "C37", "title": "Equidistribution of a reducible generator is that of its large component", "statement": "AlgorithmReducibleEquidistribution reports the dimension of equidistribution of the generator restricted to the orbit of the state after the small factors have been annihilated, i.e. of the sub-generator belonging to the irreducible factor.", "quantifier": "every reducible linear generator and state", "why_tests_cant": "all generators and states.", "anchors": ["include/MTToolBox/AlgorithmReducibleEquidistribution.hpp: constructor, get_all_equidist, get_equidist"]}
{"id": "C38", "title": "TestLinearity accepts every linear generator", "statement": "TestLinearity never rejects a generator whose add, transition and output are GF(2)-linear, whatever its seeding function does; a rejection exhibits two states violating linearity.", "quantifier": "every generator and every seeding function", "why_tests_cant": "all generators.", "anchors": ["include/MTToolBox/TestLinearity.hpp: operator(), test1, test2"]}
{"id": "C39", "title": "AlgorithmPartialBitPattern installs the best pattern it examined", "statement": "In each step the installed sub-pattern has minimal defect among all 2^size sub-patterns of the step and, among those, maximal number of one bits (the first found in decreasing order); only bits of the step's window change, and the union of the windows covers the try_bit_len most significant bits of each parameter once.", "quantifier": "every generator / defect function, every parameter number and bit length, every window of at most 30 bits (the code shifts an int; wider windows are shown to be undefined)", "why_tests_cant": "the defect is an arbitrary function of the installed pattern; exhaustive checking is impossible.", "anchors": ["include/MTToolBox/AlgorithmPartialBitPattern.hpp: operator(), search_best_temper, make_mask"]}
{"id": "C40", "title": "AlgorithmBestBits keeps the candidates of minimal defect", "statement": "search_best_temper returns exactly the in-range candidates of minimal defect, in order; the candidate list is never empty, all array accesses are in bounds, and the parameters finally installed have minimal defect among those examined in the last step.", "quantifier": "every number of parameters, shift vector, output size and defect function", "why_tests_cant": "arbitrary defect functions and shift vectors.", "anchors": ["include/MTToolBox/AlgorithmBestBits.hpp: operator(), search_best_temper, make_pattern, inRange"]}
{"id": "C41", "title": "AlgorithmRecursionAndTempering returns tempered maximal-period generators", "statement": "When search returns true the generator's recursion parameters passed the maximal-period test, its tempering has been searched with the given algorithm, and getWeight is the number of non-zero coefficients of the reported characteristic polynomial, whose degree is bitSize; the reported delta is the defect sum of the returned generator.", "quantifier": "every generator family and parameter stream", "why_tests_cant": "unbounded search loop.", "anchors": ["include/MTToolBox/AlgorithmRecursionAndTempering.hpp: search, getDelta, getWeight, getCharacteristicPolynomial"]}
{"id": "C42", "title": "The sample XORSHIFT generators are linear and invertible", "statement": "The xorshift generators of samples/XORSHIFT satisfy the linear-generator contract (add is XOR of states, transition and output are linear, setZero/isZero agree with the zero state) for every parameter choice; whenever the shift parameters lie in the range used by the search the transition is a bijection.", "quantifier": "every parameter value and state", "why_tests_cant": "2^128 states.", "anchors": ["samples/XORSHIFT/xorshift-1.cpp ... xorshift-5.cpp"]}
{"id": "C43", "title": "TinyMT32 search generator satisfies the contract of the toolbox", "statement": "The TinyMT32 search class is a 127-bit linear generator: add, transition, masked output and zero test agree on the 127-bit state; clone() yields an object with the same observable behaviour.", "quantifier": "every parameter set, tempering parameter and state", "why_tests_cant": "2^127 states.", "anchors": ["samples/TinyMTDC/tinymt32search.hpp"]}
{"id": "C44", "title": "The MTDC sample generators satisfy the contract for incomplete arrays", "statement": "The Mersenne Twister search classes (round-robin array whose first word is used only partly) act on the mexp-bit state: add aligned by index, setZero, isZero, transition and output agree with a mexp-dimensional linear generator wherever the round-robin index stands.", "quantifier": "every array size, mexp, parameters, index position and state", "why_tests_cant": "states of thousands of bits at every index offset.", "anchors": ["samples/MTDC/mt1.cpp, samples/MTDC/mt2.cpp"]}
{"id": "C45", "title": "RMT64 setOneBit sets exactly one bit", "statement": "For every bit position below the state size, setOneBit leaves exactly that bit of the state set.", "quantifier": "every bit position", "why_tests_cant": "the shift 1 << r on a 32-bit int is undefined for r >= 31; the effect is compiler dependent and silently loses half the basis vectors.", "anchors": ["samples/RMT/rmt64.hpp: setOneBit"]}
{"id": "C46", "title": "128-bit word operations behave like 128-bit integers", "statement": "The w128 helper operations (shift left/right by bytes or bits, and, xor, equality, reverse_bit, calc_1pos, getBitOfPos/setBitOfPos) agree with the operations on 128-bit natural numbers.", "quantifier": "every 128-bit word and every shift count", "why_tests_cant": "2^128 words.", "anchors": ["samples/sfmtdc/w128.hpp"]}
{"id": "C47", "title": "periodCertification yields a certified state", "statement": "After period certification the state's parity inner product is odd; states that are already certified are unchanged, otherwise exactly one bit is changed.", "quantifier": "every state and every non-zero parity vector", "why_tests_cant": "2^128 parity vectors and states of thousands of bits.", "anchors": ["samples/sfmtdc/sfmtsearch.hpp: periodCertification"]}
{"id": "C48", "title": "xorshift128 init_by_array depends on the whole key", "statement": "Two keys initialise the xorshift128 generator to the state derived from the key; different keys can give different sequences.", "quantifier": "every pair of keys", "why_tests_cant": "all keys of all lengths.", "anchors": ["samples/XORSHIFT/xorshift128.c: xorshift128_init_by_array"]}
{"id": "C49", "title": "An equidistribution object is good for one calculation", "statement": "After get_all_equidist or get_equidist has returned, a further call of either on the same object never returns normally in the model: it accesses veq[-1] or divides by bit_len = 0 (undefined behaviour); a fresh object has to be made.", "quantifier": "every generator, state, length and array", "why_tests_cant": "undefined behaviour may happen to look fine in a test run.", "anchors": ["include/MTToolBox/AlgorithmEquidistribution.hpp: get_all_equidist, get_equidist"]}
{"id": "C50", "title": "xorshift128 seeding is injective and never reaches the zero state", "statement": "xorshift128_init maps different 32-bit seeds to different states, and the generator started from any seed never enters the all-zero state however many numbers are drawn; the seed functions of the C++ samples never give the zero state.", "quantifier": "every seed, every number of steps", "why_tests_cant": "2^32 seeds times an orbit of length up to 2^128.", "anchors": ["samples/XORSHIFT/xorshift128.c: xorshift128_init, xorshift128_generate", "samples/XORSHIFT/xorshift-2.cpp: seed"]}
{"id": "C51", "title": "The xorshift search programs list exactly the maximal-period parameters", "statement": "The programs xorshift-3 and xorshift-4 terminate normally and print, once each and in decreasing order of the parameter number, exactly the parameter sets whose generator has period 2^128-1 from every non-zero state, together with the true total dimension defect of each.", "quantifier": "every one of the 2^15 (2^18) parameter sets, every non-zero state, every accuracy 1..32", "why_tests_cant": "a run shows what is printed, not that nothing was missed, that the period really is 2^128-1, or that the defect is right.", "anchors": ["samples/XORSHIFT/xorshift-3.cpp: search, main", "samples/XORSHIFT/xorshift-4.cpp: search, main"]}
{"id": "C52", "title": "The published xorshift generators have period 2^128-1 and the printed equidistribution", "statement": "The generators with shifts (5,14,1) (xorshift-1, xorshift-2) and (20,11,7) (xorshift128.c) have a cycle of exactly 2^128-1 states through every non-zero state; xorshift-1 prints degree 128 and the period message; xorshift-2 prints k(v) = 128, 64, 42, 24, 24, 4, ... and delta 117, and these are the dimensions of equidistribution over the whole period.", "quantifier": "every non-zero state, every step count below 2^128-1, every accuracy 1..32", "why_tests_cant": "2^128-1 steps cannot be run.", "anchors": ["samples/XORSHIFT/xorshift-1.cpp: main", "samples/XORSHIFT/xorshift-2.cpp: main", "samples/XORSHIFT/xorshift128.c: xorshift128_generate, xorshift128_init"]}
{"id": "C53", "title": "Dynamic creation of TinyMT32 never gives two ids the same parameters", "statement": "The parameter sets (mat1, mat2) that the TinyMT32 search builds from different pairs of a 32-bit id and a number below 2^31 (the range the search runs through) are different, and mat2 is always odd.", "quantifier": "every two ids and every two numbers", "why_tests_cant": "2^63 parameter sets.", "anchors": ["samples/TinyMTDC/tinymt32search.hpp: setUpParam", "samples/TinyMTDC/tinymt32dc.cpp: sequence_max"]}
{"id": "C54", "title": "tinymt32dc lists exactly the good parameter sets", "statement": "The program terminates normally and prints, in decreasing order of the number from the start number on, the parameter sets of the id whose generator has period 2^127-1 from every non-zero state and whose tempered output has a total dimension defect of at most max_delta: all of them, or the first count.", "quantifier": "every id, start number, bound of the defect and count", "why_tests_cant": "a run shows what is printed, not that nothing was missed, that the period is 2^127-1 or that the defect is right.", "anchors": ["samples/TinyMTDC/tinymt32dc.cpp: search, main"]}
{"id": "C55", "title": "mt1.cpp and the library give the same Mersenne Twister sequence", "statement": "For every 32-bit seed and every length, the class MT19937 of the MTDC samples, which keeps its state in a round-robin array and computes one word at a time, yields the same numbers as the library's MersenneTwister seeded with the same value.", "quantifier": "every seed and every number of outputs", "why_tests_cant": "two implementations with different buffering are compared for all 2^32 seeds and unbounded sequences; a test compares some prefixes.", "anchors": ["samples/MTDC/mt1.cpp: MT19937", "lib/MersenneTwister.cpp"]}
{"id": "C56", "title": "Mersenne Twister searches: size-1 dimensional equidistribution of whole words", "statement": "If the top bit of mata is set, every list of size-1 32-bit numbers is produced by some state of the generator; with full period the dimension of equidistribution with 32-bit accuracy is exactly size-1, in the classical sense that every non-zero tuple occurs equally often over the period.", "quantifier": "every exponent, parameter set, tempering and list of size-1 numbers", "why_tests_cant": "period 2^mexp-1; tuples of (size-1)*32 bits cannot be counted.", "anchors": ["samples/MTDC/mt1.cpp, samples/MTDC/mt2.cpp"]}
{"id": "C57", "title": "RMT64 is a linear generator on all its bits", "statement": "RMT64Search acts linearly on its size*64 bits wherever the round-robin index stands: add, setZero, transition and output agree with a linear generator, isZero is true exactly for the zero vector, the transition is invertible exactly if the top bit of mata is set (for a middle position other than 0), in which case every list of size 64-bit numbers is produced by some state; printing the parameters does not change the numbers.", "quantifier": "every size, parameter set, index position and state", "why_tests_cant": "2^(64*size) states at every index offset.", "anchors": ["samples/RMT/rmt64.hpp: RMT64Search"]}
{"id": "C58", "title": "mtgp32 is a linear generator on its mexp bits", "statement": "The sample generator mtgp32 acts linearly on the mexp bits that count, wherever the round-robin index stands: add, setZero, transition, full output and bit-reversed output agree with a linear generator and isZero decides the zero vector; the transition is invertible exactly if no non-zero table index has itself in the low four bits of its entry; without tempering a full period is equidistributed in size-1 dimensions with 32-bit accuracy.", "quantifier": "every exponent not divisible by 32, every parameter set with additive tables and 2 <= pos < size, every index position and state", "why_tests_cant": "2^mexp states at every index offset and 2^128 tables.", "anchors": ["samples/MTGPDC/MTGP32search.hpp: class mtgp32 (generate, next_state, rec, temper, add, setZero, isZero, seed, constructor)"]}
{"id": "C59", "title": "mtgp32 parameters carry the id and keep the generator linear", "statement": "setUpParam draws a position in the allowed range and a table that is additive in its index and carries the id in fixed bits, so different ids never lead to the same recursion whatever is drawn; if no position is allowed the program exits. setTemperingPattern changes exactly the masked bits of one of the four tempering words and setUpTempering turns the words into an additive table, so every step of the parameter search keeps the generator linear.", "quantifier": "every id, every draw of the parameter generator, every size and every tempering pattern", "why_tests_cant": "2^32 ids times 2^160 draws.", "anchors": ["samples/MTGPDC/MTGP32search.hpp: setUpParam, setTemperingPattern, setUpTempering, fill_table", "samples/MTGPDC/mtgp_param.h"]}
{"id": "C60", "title": "sfmt is a linear generator in every start and weight mode", "statement": "The class sfmt acts linearly on its 128*size bits plus the 0, 32, 64 or 96 bits of the previous block that the weight mode uses, wherever the round-robin index stands: add, setZero, transition, generate() and generate(int), also with reversed bits, agree with a linear generator; isZero is true exactly for the zero vector; with legal parameters no call has undefined behaviour; the transition is invertible in weight mode 4 and never in the other modes.", "quantifier": "every size from 2 words on, every legal parameter set, start mode, weight mode, index position and state", "why_tests_cant": "2^(128*size) states at every index offset in 16 modes.", "anchors": ["samples/sfmtdc/sfmtsearch.hpp: class sfmt (generate, next_state, do_recursion, add, setZero, isZero, seed, constructors)"]}
{"id": "C61", "title": "The start and weight modes of sfmt read the one sequence of 32-bit words", "statement": "There is one sequence of 128-bit words, the array from the oldest word continued by the SFMT recursion with the given shifts and masks, such that in start mode sm and weight mode wm every call from the second on returns four consecutive words of the corresponding sequence of 32-bit words, rotated, beginning at the position that sm and wm determine.", "quantifier": "every legal parameter set, mode, state and number of calls", "why_tests_cant": "unbounded sequences; a test compares prefixes for some states.", "anchors": ["samples/sfmtdc/sfmtsearch.hpp: generate, next_state, do_recursion, setStartMode, setWeightMode"]}
{"id": "C62", "title": "setOneBit of sfmt runs through all unit vectors", "statement": "setOneBit(i) gives the state in which bit i of the array and no other is set, for every i below bitSize().", "quantifier": "every size and position", "why_tests_cant": "the searches depend on all positions being covered; RMT64 has the same function and fails for half of them (C45).", "anchors": ["samples/sfmtdc/sfmtsearch.hpp: setOneBit"]}
{"id": "C63", "title": "setUpParam of sfmt draws legal parameters", "statement": "For arrays of at least three words setUpParam draws parameters for which no shift of the recursion is out of range and the transition is invertible, and leaves state and modes unchanged; for two words it divides by zero.", "quantifier": "every value of the thirteen random numbers and every size", "why_tests_cant": "2^416 draws.", "anchors": ["samples/sfmtdc/sfmtsearch.hpp: setUpParam"]}
{"id": "C64", "title": "The SIMD equidistribution test measures the sequence of 32-bit or 64-bit words", "statement": "calc_SIMD_equidistribution on an sfmt object returns without exception, and veq[v-1] is the dimension of equidistribution with v-bit accuracy of the sequence of its 32-bit (or 64-bit) words: the greatest k such that the v leading (or trailing) bits of k consecutive words take all values, from whichever of the lanes of a 128-bit word the block begins; the returned sum is the sum of the defects.", "quantifier": "every legal parameter set with at least three words, every state, exponent, accuracy, both word sizes, leading and trailing bits", "why_tests_cant": "the linear algebra behind it has 2^mexp states; a test sees numbers without knowing the right ones.", "anchors": ["samples/sfmtdc/AlgorithmSIMDEquidistribution.hpp", "samples/sfmtdc/calc_equidist.cpp", "samples/sfmtdc/sfmtsearch.hpp: setStartMode, setWeightMode"]}
{"id": "C65", "title": "dSFMT with prefix 0 is a GF(2)-linear generator", "statement": "For every legal parameter set, start mode and weight mode and prefix 0, generate() and generate(v) of the class dSFMT are defined and act GF(2)-linearly on the state (the 52 low bits of each half of the words of the array, the lung, and in weight mode 1 the half of the previous block that is used); add is the sum; isZero decides the zero state; the transition is invertible in weight mode 2 and not otherwise; seeded and constructed objects are such states.", "quantifier": "every array size from two words on, parameters, modes, and states", "why_tests_cant": "the linearity of maps on spaces of 2^19937 and more elements.", "anchors": ["samples/dSFMTdc/dSFMTsearch.hpp: generate, do_recursion, next_state, add, setZero, isZero, seed, bitSize"]}
{"id": "C66", "title": "dSFMT produces one sequence of 64-bit words", "statement": "The words returned by successive calls of generate() are consecutive 64-bit halves of the one sequence of 128-bit words defined by the recursion of dSFMT with lung; the start mode shifts the phase by one word and weight mode 1 takes the second word from one block earlier.", "quantifier": "every parameter set, mode, state and number of calls", "why_tests_cant": "an unbounded number of calls and all states.", "anchors": ["samples/dSFMTdc/dSFMTsearch.hpp: generate, do_recursion, setStartMode, setWeightMode"]}
{"id": "C67", "title": "dSFMT setOneBit enumerates unit vectors, setUpParam chooses legal parameters", "statement": "setOneBit(i) for i below bitSize() gives the state whose bit i is set and no other, so that all unit vectors are obtained; setUpParam gives for arrays of at least three words parameters for which the generator is defined, with pos1 from 1 to size-2 and sl1 from 1 to 51, or the fixed sl1.", "quantifier": "every array size, position and all numbers drawn", "why_tests_cant": "2^64 values for each draw and all positions and sizes.", "anchors": ["samples/dSFMTdc/dSFMTsearch.hpp: setOneBit, setUpParam"]}
{"id": "C68", "title": "dSFMT with the prefix 0x3ff outputs doubles in [1,2) and is affine", "statement": "With the prefix 0x3ff0000000000000 every 64-bit half of the state and of the output has sign and exponent 0x3ff, i.e. is an IEEE double in [1,2), for ever; and without the prefix the state moves by x -> xA + C, where A is the transition with prefix 0 and C is the state computed by setConst.", "quantifier": "every parameter set, state and number of calls", "why_tests_cant": "all states and any number of steps.", "anchors": ["samples/dSFMTdc/dSFMTsearch.hpp: setup_prefix, setPrefix, setConst, generate, seed"]}
{"id": "C69", "title": "Fixed point and parity vector certify the period of dSFMT", "statement": "calc_fixpoint returns the lung of the only fixed point of the affine map on the component of the irreducible factor (it throws if the polynomials are not coprime). With this fixed point and the vector of searchParity stored in the parameters, every state of the generator in use (with prefix), after periodCertification, has a period that is a multiple of 2^mexp-1.", "quantifier": "every parameter set whose characteristic polynomial has a primitive factor of degree mexp once, and every state", "why_tests_cant": "a period of 2^mexp-1 steps for each of 2^(mexp+...) states.", "anchors": ["samples/dSFMTdc/calc_fixpoint.cpp: calc_fixpoint", "samples/dSFMTdc/dSFMTdc.cpp: search", "samples/dSFMTdc/dSFMTsearch.hpp: setConst, setFixPoint, periodCertification, equals", "include/MTToolBox/AlgorithmCalculateParity.hpp"]}
{"id": "C70", "title": "The dSFMT equidistribution test measures the sequence of 52-bit words", "statement": "calc_dSFMT_equidistribution on a dSFMT object with prefix 0 returns without exception, and veq[v-1] is the dimension of equidistribution with v-bit accuracy of the sequence of its 52-bit words: the greatest k such that the v leading bits of k consecutive words take all values, from whichever of the two halves of a 128-bit word the block begins; the returned sum is the sum of the defects.", "quantifier": "every legal parameter set, array size, state, exponent and accuracy up to 52 bits", "why_tests_cant": "the linear algebra behind it has 2^mexp states; a test sees numbers without knowing the right ones.", "anchors": ["samples/dSFMTdc/AlgorithmDSFMTEquidistribution.hpp", "samples/dSFMTdc/calc_equidist.cpp", "samples/dSFMTdc/dSFMTsearch.hpp: setStartMode, setWeightMode"]}
{"id": "C71", "title": "getLCMPoly returns the least polynomial for the lung bits and the unit states", "statement": "dSFMTdc's getLCMPoly(lcm, sf) returns: for lcm dividing the characteristic polynomial the result is the least common multiple of lcm, the minimal polynomials of all 128 lung-bit sequences of sf and those of the lowest lung bit of every state; it divides the characteristic polynomial and annihilates the state of sf; where the lowest lung bit determines the state it annihilates every state. sfmtdc's getLCMPoly returns the least multiple of lcm that generates the lowest output bit of every state.", "quantifier": "every legal parameter set, size, state and divisor lcm; MinPolySeq as NTL specifies it", "why_tests_cant": "a polynomial that kills some states and not others looks fine on any finite set of runs.", "anchors": ["samples/dSFMTdc/Annihilate.cpp:43-79", "samples/sfmtdc/Annihilate.cpp:43-66"]}
{"id": "C72", "title": "anni leaves a state in the component of period 2^mexp - 1", "statement": "anni(g) returns true exactly if the minimal polynomial of the lowest output bit of g has an irreducible factor of degree mexp as large factor; then the state left in g is not zero, an irreducible polynomial of degree mexp annihilates it and is a linear recurrence of the words of g, and if 2^mexp - 1 is prime the period of g is exactly 2^mexp - 1. So the equidistribution tests that follow may be given mexp as the dimension.", "quantifier": "every legal parameter set and state, and all mexp with fewer than 2 mexp state bits", "why_tests_cant": "the period 2^mexp - 1 cannot be run through, and the zero state or a state outside the component gives plausible numbers.", "anchors": ["samples/dSFMTdc/Annihilate.cpp:13-41", "samples/sfmtdc/Annihilate.cpp:13-41"]}
{"id": "C73", "title": "sfmtdc prints only parameter lines that mean what they say", "statement": "search() of sfmtdc ends with return value 0 (neither the degree test nor anni ever fails). Each printed line is a legal parameter set with an irreducible factor f of degree mexp of the characteristic polynomial; the printed parity vector is not zero and every state certified by it lies outside the kernel of the cofactor of f, so that its period is a multiple of 2^mexp - 1 if that is prime; delta128 is the sum of the defects of the exact dimensions of the component of f, delta32 and delta64 are sums of defects of dimensions of the sequence of 32-bit and 64-bit words of a nonzero state in that component. At most count lines are printed, and fewer only after 100 * mexp parameter sets in a row without such a factor.", "quantifier": "all mexp >= 256 not divisible by 128 with 100 * mexp < 2^31 (all exponents the program names), all counts, every parameter generator returning 32-bit values, and any contents of the uninitialised arrays", "why_tests_cant": "the search takes hours, and a wrong parity vector or defect is not visible in the output.", "anchors": ["samples/sfmtdc/sfmtdc.cpp:77-165", "samples/sfmtdc/sfmtsearch.hpp:462-482", "include/MTToolBox/AlgorithmReducibleRecursionSearch.hpp:110-180"]}
{"id": "C74", "title": "dSFMTdc prints only parameter lines that mean what they say", "statement": "search() of dSFMTdc ends with return value 0: calc_fixpoint never throws, the parity search finds a vector, anni never fails. Each printed line is a legal parameter set whose linear part has an irreducible factor f of degree mexp once; with the printed fixed point and parity vector every state of the generator in use (doubles in [1,2)), after periodCertification, has a period that is a multiple of 2^mexp - 1 if that is prime; delta52 is the sum of the defects of dimensions of equidistribution of the 52-bit words of a nonzero state in the component of f. At most count lines are printed, and fewer only after 100 * mexp parameter sets in a row without such a factor.", "quantifier": "all mexp >= 336 with 100 * mexp < 2^31 (all exponents the program names), all counts, the option fixed absent or between 1 and 63, every parameter generator, and any contents of the uninitialised arrays", "why_tests_cant": "the search takes hours; a wrong fixed point or parity vector shows in no output.", "anchors": ["samples/dSFMTdc/dSFMTdc.cpp:80-143", "samples/dSFMTdc/dSFMTsearch.hpp:378-391", "samples/dSFMTdc/calc_fixpoint.cpp", "samples/dSFMTdc/Annihilate.cpp:13-41"]}
{"id": "C75", "title": "mt2 prints exactly the good parameter sets it meets, in order", "statement": "mt2 takes the numbers of its parameter generator two at a time. A pair stands for a recursion (position 2 ... size - 1, the id in the low half of mata). Every recursion of maximal period gets the masks found by the bitwise search (bits 0 to 14, least defect first) and its exact total defect; it is printed if and only if the defect is at most max_delta, in the order of the numbers, until count lines are printed, and then the program returns 0. It has no other outcome (\"not found\" never appears) and no undefined behaviour: it can only run on through recursions that are not maximal or whose defect is too large. Uninitialised members have no influence. Each printed generator is legal, has maximal period, its low half of mata is the id, and the printed delta is the total defect of exactly the printed generator.", "quantifier": "all mexp >= 64 not divisible by 32 with 2^mexp - 1 prime and 1000 * mexp < 2^31, all ids below 2^16, every parameter generator returning 32-bit numbers, all seeds, counts and bounds", "why_tests_cant": "a search takes hours, and a parameter set that was skipped or a wrong defect shows in no output.", "anchors": ["samples/MTDC/mt2.cpp:387-413", "samples/MTDC/mt2.cpp:150-175", "include/MTToolBox/AlgorithmRecursionAndTempering.hpp:135-220", "include/MTToolBox/AlgorithmBestBits.hpp:110-260"]}
{"id": "C76", "title": "MTGP32dc prints one correct parameter set for each of the ids asked for", "statement": "MTGP32dc prints exactly count lines and returns 0 (\"search failed\" never appears); line i is for id + i modulo 2^32. Each id starts again with the first number of the parameter generator, and takes five numbers at a time: a position from 3 to size - floor2p(size) - 1 (to size / 2 - 1 if size is at most 100) and four table words, into two of which the id is written. The line belongs to the first of these recursions that has maximal period 2^mexp - 1. Its four tempering words are those found by the two window searches (nine low bits judged by the reversed outputs, then 23 high bits), weight is the number of terms of the characteristic polynomial, and delta the total defect of exactly the printed generator. The id can be read off tbl[2] and tbl[3], so two lines of a run never belong to the same recursion. Uninitialised members have no influence, and there is no undefined behaviour; the program can only run on through recursions that are not maximal.", "quantifier": "all mexp not divisible by 32 with 2^mexp - 1 prime, 1000 * mexp < 2^31 and a position to choose from (that includes all exponents the program accepts), all 32-bit ids, counts and seeds, every parameter generator returning 32-bit numbers", "why_tests_cant": "a search takes minutes to hours per line, and neither a wrong defect nor a non-maximal recursion shows in the output.", "anchors": ["samples/MTGPDC/MTGP32dc.cpp:37-91", "samples/MTGPDC/MTGP32search.hpp:150-302", "include/MTToolBox/AlgorithmRecursionAndTempering.hpp:135-220", "include/MTToolBox/AlgorithmPartialBitPattern.hpp:90-260"]}
{"id": "C77", "title": "What the search for reducible generators with tempering returns", "statement": "AlgorithmReducibleRecursionAndTempering::search returns only true. The polynomial it returns is an irreducible factor of degree getMexp() of the minimal polynomial of the first recursion (in the order of the parameter generator) that has one, with a cofactor without factors of that degree; the parity vector is the one searchParity finds for it, the weight is its number of terms. The tempering searches and the reversal of the outputs leave the recursion and the state alone, so the generator returned has the accepted recursion. If the state in which searchParity leaves the generator (the parity vector stored into it) has a part in the component of this factor, the state returned is a non-zero state of the component and delta is the sum of bitSize()/v - k(v) for the dimensions k(v) of this component. It is not the sum of getMexp()/v - k(v), the total defect: it exceeds it by a constant of at least bitSize() - getMexp(). Once a recursion and a parity vector are found and the tempering searches return, the search returns.", "quantifier": "all linear generators with parity (a setParityValue that keeps the recursion) with bitSize() < 2 mexp, all parameter generators, all tempering searches that keep recursion and state, all fuels", "why_tests_cant": "a search takes hours, and whether the reported defect is that of the right component cannot be seen in the output.", "anchors": ["include/MTToolBox/AlgorithmReducibleRT.hpp:126-202", "include/MTToolBox/AlgorithmReducibleRecursionSearch.hpp:100-170", "include/MTToolBox/AlgorithmCalculateParity.hpp:120-330"]}
{"id": "C78", "title": "rmt64dc prints what it claims, for the recursions it can handle", "statement": "When rmt64dc (without verbose) ends without undefined behaviour it has printed count lines; the numbers of the parameter generator are taken two at a time, exactly the recursions whose minimal polynomial of the lowest bit has a large factor of degree mexp get a line, in this order, with their position and mata. If the recursion of a line is invertible, the parity vector printed is not 0 and every state whose parity word has an odd number of common bits with it has a period that is a multiple of 2^mexp - 1; and if the vector has an odd number of one bits, delta is the sum of n/v - k(v) for the component of the large factor under the printed masks, which are the result of two searches by windows of six bits from the masks of the line before. For exponents with more than 32 bits beside the component (11 of the 15 offered) no line is ever printed for an invertible recursion: the search for the parity vector shifts an int by 32 first. Members that the constructor leaves uninitialised have no influence.", "quantifier": "all exponents that are no multiple of 64, greater than 64 and have 2^mexp - 1 prime, all parameter generators, all fuels, all counts, all results of the NTL oracles that meet their specification", "why_tests_cant": "one line takes minutes to hours; the period certificate is about all states and the undefined shift shows up only for some exponents.", "anchors": ["samples/RMT/rmt64dc.cpp:78-114", "samples/RMT/rmt64.hpp:22-262", "include/MTToolBox/AlgorithmReducibleRT.hpp:126-202"]}
{"id": "C79", "title": "calc_period and calc_equidist for RMT read what rmt64dc prints and report the truth about it", "statement": "Both programs read the parameter line of getParamString (with anything that is not a digit after it) back as the same parameters. calc_period prints the line with cleaned masks and says that it found a factor exactly if the minimal polynomial of the lowest bits after seed(1234) has a large irreducible factor of degree mexp; then every period of these bits, even if it begins later, is a multiple of 2^mexp - 1. calc_equidist prints for v = 1 ... 64 the exact dimension of equidistribution k(v) of the component of that factor, which is at most mexp / v, mexp / v - k(v) and the sum of these, also for singular recursions. For an invertible recursion its delta differs from that of rmt64dc by a number that depends on mexp only. The order of the parameters in the usage message is not the one that is read (refuted).", "quantifier": "all parameter lines with mexp < 2^31, position in range and 64-bit words (mexp > 64 for calc_equidist, 2^mexp - 1 prime for the period), all contents of the uninitialised array, all results of the NTL oracles that meet their specification", "why_tests_cant": "a period of 2^521 - 1 or more cannot be observed, and the dimensions are about all states of the component.", "anchors": ["samples/RMT/calc_period.cpp:11-47", "samples/RMT/calc_equidist.cpp:11-72", "samples/RMT/rmt64.hpp:198-212"]}
{"id": "C80", "title": "test_period of sfmtdc reads its parameters back and its table tells the truth", "statement": "test_period reads the line that getParamString of an sfmt object writes (with anything behind it) back as the same parameters and prints it again. The numbers before the annihilation are the least and the greatest degree of the minimal polynomials of the 128 bit sequences of the seeded generator and the number of terms of the first one of greatest degree. The line of the table for start mode i and weight mode j is printed exactly if the minimal polynomial of bit 32 i of the words has an irreducible factor of degree mexp; at the first start mode where this fails the program ends with -1. A line shows max = mexp, and min = mexp if the polynomials of all 128 bits have such a factor, min = 0 otherwise; the weight mode has no influence. The value returned is 0 exactly if bits 0, 32, 64 and 96 have the factor, and then there are 16 lines. The words of the seed that the program does not initialise change none of this except through the sequence itself. A line that ends early makes the program read behind its argument (refuted).", "quantifier": "all legal parameters with 256 <= mexp < 2^31 - 128 and pos1 not divisible by the number of words, all values of the uninitialised words of the seed, all results of MinPolySeq that meet its specification", "why_tests_cant": "the polynomials have degrees of thousands; whether the modes that mix two calls change the result is a statement about all states.", "anchors": ["samples/sfmtdc/test_period.cpp:12-98", "samples/sfmtdc/Annihilate.cpp", "samples/sfmtdc/sfmtsearch.hpp:112-133"]}
{"id": "C81", "title": "calc_period of dSFMTdc reads its parameters back and its table tells the truth", "statement": "calc_period reads the line that getParamString of a dSFMT object writes (with anything behind it) back as the same parameters and prints it again. The numbers before the annihilation are the least and the greatest degree of the minimal polynomials of the bits 0 to 51 and 64 to 103 of the seeded generator. The line for start mode i and weight mode j is printed exactly if the minimal polynomial of bit 64 i of the 128-bit words has an irreducible factor of degree mexp; at the first start mode where this fails the program ends with -1. A line shows max = mexp, and min = mexp if the polynomials of all the bits looked at (in start mode 1: of the words shifted by 64 bits) have such a factor, min = 0 otherwise; the weight mode has no influence. The value returned is 0 exactly if bits 0 and 64 have the factor, and then there are 4 lines. The bits 104 to 115 are not looked at.", "quantifier": "all legal parameters with 232 <= mexp < 2^31 - 128 and sl1 > 0, all values of the uninitialised words of the seed, all results of MinPolySeq that meet its specification", "why_tests_cant": "the polynomials have degrees of thousands; whether the modes that mix two calls change the result is a statement about all states.", "anchors": ["samples/dSFMTdc/calc_period.cpp:12-95", "samples/dSFMTdc/Annihilate.cpp", "samples/dSFMTdc/dSFMTsearch.hpp:95-109"]}
{"id": "C82", "title": "calc_fixpoint and calc_parity of dSFMTdc complete a line of parameters", "statement": "Given a line that begins with mexp, pos1, sl1 and the masks of a dSFMT, calc_fixpoint prints these parameters with a fixed point and a zero parity vector if the minimal polynomial of the lowest output bit of the seeded generator has an irreducible factor f of degree mexp, and a message otherwise; the remainder it tests for never occurs. The fixed point is the lung of a state that the step of the generator in use (an affine map) leaves unchanged in the component of f. calc_parity, given the line with a fixed point, adds a non-zero parity vector v such that a state whose lung has odd inner product with v has a non-zero component, and returns 0; without a factor it returns -1. A line that went through both programs holds parameters for which, if 2^mexp - 1 is prime, every state of the generator in use has a period that is a multiple of 2^mexp - 1 after periodCertification. The words of the seeds that neither program initialises need not agree.", "quantifier": "all legal parameters with 232 <= mexp < 2^31 - 128 and sl1 > 0, any text behind them, all values of the uninitialised words of the seeds, all results of MinPolySeq, XGCD, kernel and calc_1pos that meet their specifications, all states of the generator in use", "why_tests_cant": "the period is astronomically long and the states cannot be enumerated; the two programs communicate through text only, so that the factor found by the second must be the one of the first for all seeds.", "anchors": ["samples/dSFMTdc/calc_fixpoint_main.cpp:130-235", "samples/dSFMTdc/calc_parity_main.cpp:150-214", "samples/dSFMTdc/calc_fixpoint.cpp", "samples/dSFMTdc/calc_parity.cpp"]}
{"id": "C83", "title": "calc_equidist of sfmtdc and of dSFMTdc print the dimensions of the component of the large factor", "statement": "Given a line that getParamString of an sfmt object writes (with anything behind it), calc_equidist of sfmtdc prints it again if the minimal polynomial of the lowest output bit of the seeded generator has an irreducible factor f of degree mexp, and nothing otherwise. The three sums of defects and the tables behind it belong to dimensions of equidistribution: for 128 bits, the exact ones of the outputs in the component of f, with the option -r those of the outputs with the bits reversed; for 32 and 64 bits, those of the sequence of words of every non-zero state of the component of f, with -r from the lowest bits, the greatest multiples of the number of words in 128 bits. An entry of a table is k(v) and floor(mexp / v) - k(v). The line and the numbers for 128 bits of two runs that print are the same, whatever the seed and whatever is not initialised. calc_equidist of dSFMTdc does the same with the 52-bit words.", "quantifier": "all legal parameters (256 <= mexp < 2^31 - 128 and pos1 not divisible by the number of words for sfmtdc, 232 <= mexp < 2^31 - 128 and sl1 > 0 for dSFMTdc), all seeds, all contents of the arrays and of the half of the seed not initialised, all non-zero states of the component, all results of MinPolySeq and calc_1pos that meet their specifications", "why_tests_cant": "the dimensions are statements about all starting states of a component of 2^mexp states; a test runs one seed and cannot tell a correct dimension from a wrong one.", "anchors": ["samples/sfmtdc/calc_equidist.cpp:27-97", "samples/sfmtdc/calc_equidist.cpp:174-201", "samples/dSFMTdc/calc_equidist.cpp:26-77", "samples/dSFMTdc/calc_equidist.cpp:149-166"]}
{"id": "C84", "title": "calc_parity of sfmtdc prints a certifying parity vector and its check -c gives the right verdict", "statement": "Given a line that getParamString of an sfmt object writes (with anything behind it), calc_parity of sfmtdc looks for an irreducible factor f of degree mexp of the minimal polynomial of the lowest output bit of the seeded generator. If there is one it prints the line with the parity vector replaced by a vector v that is not zero and certifies for f: a state with an odd number of bits in common with v in its newest word has a non-zero component in f, and if 2^mexp - 1 is prime its period is a multiple of 2^mexp - 1. With the option -c the last line is right: it reports 100 successes if f divides the minimal polynomials for the seeds 1 to 100, and otherwise the first seed for which this fails; the branches that report a wrong parity vector are not taken, and with any certifying vector and any number of seeds this is so. Without a factor the program prints that there is none.", "quantifier": "all legal parameters (256 <= mexp < 2^31 - 128, mexp no multiple of 128, pos1 not divisible by the number of words), all contents of what is not initialised, all results of MinPolySeq, kernel and calc_1pos that meet their specifications; for the check all certifying vectors and all numbers of seeds below 2^128 - 3", "why_tests_cant": "the certification is about all 2^(128 * size) states, the period is about 2^mexp steps, and a test of the check cannot tell whether a success is one for the right reason.", "anchors": ["samples/sfmtdc/calc_parity.cpp:19-24", "samples/sfmtdc/calc_parity.cpp:30-150", "samples/sfmtdc/calc_parity.cpp:199-243", "samples/sfmtdc/sfmtsearch.hpp:595-625"]}
{"id": "C85", "title": "The bundled TinyMT32 is the generator the search measures, is seeded safely, and its floats are exact", "statement": "The TinyMT32 shipped in test/ (tinymt32.h, tinymt32.c) steps through the same words as the search class of samples/TinyMTDC and, with LINEARITY_CHECK, outputs the same numbers. tinymt32_init (every 32-bit seed) and tinymt32_init_by_array (every key shorter than INT_MAX) leave the parameters alone and end in a state whose 127 bits are not all zero, so that with parameters of maximal period the sequence of states has the exact period 2^127-1. Two different seeds give different 127-bit states (unless tmat is 2284664934). The floating point functions are exact functions of the 32-bit output and lie in the documented intervals, except that generate_floatOC takes two steps per call. The class Tiny32 of the tests meets the contract of the toolbox and test_equidist succeeds for every seed.", "quantifier": "all parameters, all seeds, all keys, all states, all numbers of steps", "why_tests_cant": "The tests run one seed; the period, the distinctness of 2^32 seeds and of unbounded keys and the intervals for all states cannot be sampled.", "anchors": ["test/tinymt32.h", "test/tinymt32.c", "test/test_generator.hpp:17-111", "test/test_equidist.cpp:14-27", "samples/TinyMTDC/tinymt32search.hpp:238-241,326-344,446-461"]}
{"id": "C86", "title": "The bundled TinyMT64 has the full period from every seed and exact doubles", "statement": "The TinyMT64 shipped in test/ (tinymt64.h, tinymt64.c) has, with LINEARITY_CHECK, a step and an output that are linear in the state; its step is injective on the 127 bits that count, for all parameters. With the published parameters of the class Tiny64 the sequence of states has the exact period 2^127-1 from every state but zero. tinymt64_init (every 64-bit seed) and tinymt64_init_by_array (every key an int can count) leave the parameters alone and never end in the zero state, so Tiny64 has this period for every seed. Different seeds give different states. The floating point functions are exact functions of one 64-bit output, take one step and lie in the documented intervals.", "quantifier": "all parameters, all seeds, all keys, all states, all numbers of steps", "why_tests_cant": "The period 2^127-1 cannot be run through; neither can all 64-bit seeds or all keys.", "anchors": ["test/tinymt64.h", "test/tinymt64.c", "test/test_generator.hpp:113-132"]}
{"id": "C87", "title": "test_period: the minimal polynomials of the test generators are primitive, and the factor table of the tests is wrong", "statement": "For Tiny32 and Tiny64 with the published parameters and every seed, AlgorithmPrimitivity's minpoly gives a primitive polynomial of degree 127, so the functions period_u32, period_u64, is_prime and the Tiny64 half of is_irreducible of test/test_period.cpp return success. The table of prime factors that test_period.cpp and test_rtiny.cpp hand to isPrime(poly, 128, table) should be that of 2^128-1; it is not: the entry 672804213107211 does not divide 2^128-1 and the prime factor 67280421310721 is missing, so isPrime with this table calls an irreducible polynomial primitive that is not.", "quantifier": "all seeds, all results of MinPolySeq that meet its specification, all polynomials", "why_tests_cant": "The tests run the seed 1234 only; the missing factor is seen only by a polynomial whose order lacks just this factor, and none of the polynomials of the tests is one.", "anchors": ["test/test_period.cpp:44-105", "test/test_period.cpp:110-125", "test/test_rtiny.cpp:20-50"]}
{"id": "C88", "title": "RTiny32 has the period 2^128-1 from every seed, and is_irreducible and is_prime2 of test_period succeed for the right reasons", "statement": "seed of the class RTiny32 of test/ gives, for all parameters and seeds, four words that are not all zero. With the parameters of RTiny32(value) the sequence of states has the exact period 2^128-1 from every state but zero, and the minimal polynomial minpoly computes is primitive for every seed, which isPrime recognises in spite of the wrong table of factors (C87). Of the two other objects of test_period.cpp (seed 1234), the minimal polynomial of the first is not irreducible and that of the second is not primitive (the order of X divides (2^128-1)/3), so the functions is_irreducible and is_prime2 return true.", "quantifier": "all parameters, all seeds, all states, all numbers of steps, all results of MinPolySeq that meet its specification (for the two other objects the seed 1234 of the program)", "why_tests_cant": "The period cannot be run through, nor can all seeds; a passing test does not tell whether the polynomial has the property the test is named after.", "anchors": ["test/test_generator.hpp:156-240", "test/test_period.cpp:72-91", "test/test_period.cpp:107-128"]}
