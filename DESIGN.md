# Formal model of MTToolBox: design

Everything is in `rocq/theories` (logical name `Verif`), Rocq/Coq 8.16.1, the
standard library and MathComp.  File naming:

| suffix        | content |
|---------------|---------|
| `*Model.v`    | executable Gallina model of the C++ code; every definition cites the file and lines it models |
| `*Spec.v`     | small specifications that do not mention the model |
| `*Lemmas.v`, `*Proofs.v` | proofs |
| `*Props.v`    | property theorems only: `Theorem ... exact lemma. Qed.` and `Print Assumptions`, with an `Example` beside each |
| `*Tests.v`    | `vm_compute` runs of the model against values published in the repository's tests (tests, not proofs) |

## Modelling conventions

* A machine word of width w is an `N` below 2^w.  Every operation that can
  wrap is written with its explicit `mod 2^w`.
* A C++ function that mutates an object becomes a function returning the new
  value.
* Undefined behaviour, thrown exceptions, `exit` and exhausted fuel are distinct
  constructors of the outcome type `res` (`Base.v`): `Ret`, `Undef`,
  `Throw`, `Exit`, `NoFuel`.  Theorems that claim a result claim the
  constructor `Ret`; fuel exhaustion is excluded by the theorem.
* Loops are structural recursion or recursion on fuel.
* Generators (the abstract C++ interface `AbstractGenerator` /
  `RecursionSearchable` / `EquidistributionCalculatable` / ...) are records of
  functions over an arbitrary state type.  The mathematical contract
  "GF(2)-linear generator of dimension n" is the existence of a map from states to row
  vectors in F_2^n, a transition matrix A and an output matrix C; it appears as
  a hypothesis of the theorems and is *proved* for the sample generators.
* NTL is not part of the repository.  `GF2X` is modelled by MathComp's
  `{poly 'F_2}` (mathematical polynomials: degree, coefficient, product,
  quotient, remainder, gcd); `ZZ` by `N`/`nat`; `IterIrredTest` by an arbitrary
  boolean function with the documented behaviour as hypothesis ("true iff
  irreducible"); `MinPolySeq` by an arbitrary function with its documented
  behaviour as hypothesis; `kernel` of a matrix likewise.  Where an oracle is used the hypothesis
  is visible in the theorem statement and an instance satisfying it is given.

## Trusted base

* Coq's kernel (and `vm_compute` where a proof uses it).
* The axioms printed by `Print Assumptions` below each theorem in `*Props.v`
  (the table at the end of this file); nothing of our own is assumed.
* Faithfulness of the model to the text of /repo: the C++ was read, not run.
* The documented behaviour of NTL as described above.

Not modelled: memory allocation, stream formatting apart from `print_binary`,
command-line parsing of the samples, the SHA1 helper, floating point conversion functions (except those of test/tinymt32.h and test/tinymt64.h, C85, C86), object
lifetime, time and randomness sources of the sample programs.

## Properties: what is modelled and how it is proved

* C01 count_bit, C02 reverse_bit, C03 calc_1pos (`UtilModel.v`): straight
  transcription of the SWAR code on `N` words.  Proof: reflection to a
  bit-vector (tuple of w booleans); reverse_bit bit by bit by computation with symbolic
  bits; count_bit by splitting the word into 16-bit / 8-bit fields, an exhaustive field
  computation lifted by an additivity lemma.  calc_1pos: `x & -x` isolates the
  lowest bit (two's complement lemma).  The signed negation is a partial
  operation: the strict statement is refuted for the word with only the top bit
  set (32/64 bit), the statement without that word is proved, and the
  wrap-around reading is proved for every word.
* C04 floor2p: recursion on fuel; induction on the binary representation;
  divergence for 0: for every fuel the result is `NoFuel`.
* C05 get_range: `Z` arithmetic with explicit int range checks.
* C06 fill_table: double loop as folds; induction on loops; spec is a big XOR over bits.
* C07, C08: bit lists against `N.testbit`; the final shift by -1 is an `Undef`
  outcome: `..._refuted` for the strict claim, round trip proved for the reading where
  the unused mask value is arbitrary.
* C09 print_binary: model produces the character list; decoder spec and
  injectivity.
* C10 LCM: MathComp polynomial divisibility.
* C11-C17 Mersenne Twisters (`MTModel.v`, `MT64Model.v`): array as a
  function/list with explicit "uninitialised" cells; the spec is the textbook recurrence
  `x : nat -> N`; refinement invariant between the circular buffer and the recurrence;
  induction on the number of calls.  Seeding against transcriptions of the
  reference algorithms `init_genrand` / `init_by_array`.  Tempering bijectivity by an
  explicit inverse.  Linearity/invertibility of the recurrence by explicit inverse step.
* C18, C19 Sequential: state machine, induction over the number of calls and
  over operation sequences.
* C20 minpoly: linear recurrences over F_2, annihilator ideal of a sequence.
* C21, C22, C26 primitivity: order of X modulo an irreducible polynomial, via
  the finite field extension of MathComp.  Full completeness of the exponent
  table up to its largest entry and primality of the huge Mersenne numbers
  cannot be checked by a kernel computation: only the small part is; the
  known missing exponent is recorded in a comment only.
* C23 prime tables: Pocklington/Lucas certificates checked by the kernel
  (own small checker on `N`, proved correct).
* C24 hasFactorOfDegree: MathComp polynomials; irreducible factorisation and
  X^(2^k) - X.
* C25 decimal strings: fold over characters; inverse of decimal printing.
* C27, C28, C41 searches: state machines over an arbitrary generator family;
  success theorem combines C20 and C21.
* C29 annihilate: induction on coefficients, `horner_mx`.
* C30 characteristic polynomial: lcm of minimal polynomials.
* C32-C37 equidistribution (flagship): `EquiModel.v` transcribes the PIS
  algorithm on abstract generators; the proof tracks formal Laurent sequences
  (`Z -> F_2^v`), the lattice generated by the basis, triangularity of the
  leading coefficients, a termination measure, and the duality between
  reducedness and surjectivity of the output map.
* C38 TestLinearity (`LinTestModel.v`): induction over the 100 comparisons;
  acceptance of every linear generator, the exact meaning of acceptance, and a
  non-linear generator that is accepted.
* C39, C40 tempering searches (`TemperModel.v`): the defect computation is an
  arbitrary function of the installed parameters; argmin invariants over the
  pattern loop and the walk over the cells.  C41 (`RecTemperModel.v`): the
  recursion search followed by tempering, for an arbitrary family; instance TinyMT32.
* C42, C48, C50 (`XorshiftModel.v`): the sample xorshift generators and the C
  function of the library; XOR-linearity of word operations, explicit inverses.
* C43, C53, C54 (`TinyModel.v`, `TinyDcModel.v`): TinyMT32, its parameter
  enumeration and the program tinymt32dc.  Period and defect of the published
  parameters by kernel computation with the proved factorisation of 2^127-1.
* C44, C45, C55-C59 round-robin arrays: a generic theory (`ArrayModel.v`,
  `ArrayWin.v`, `ArrayLin.v`, `ArrayOut.v`, `ArrayEqui.v`, `ArrayPeriod.v`) of
  generators that keep `size` words in a circular buffer, of which r bits of the oldest
  word do not count.  The state vector is read from the position after the
  index.  Instances: `MtdcModel.v` (MT19937 of mt1.cpp, MT32Search of mt2.cpp),
  `RmtModel.v` (RMT64Search), `MtgpModel.v` (mtgp32).
* C60-C63 (and C31) sfmt: `SfmtModel.v`; `DelayLin.v` extends the theory of
  arrays by one delayed word, `SfmtLin.v`, `SfmtProofs.v` and `SfmtParity.v`
  instantiate it.  128-bit words are numbers, their 32-bit words are taken as on a
  little endian machine.
* C64 (`SimdModel.v`, over the equidistribution model of C32): `SimdEqui.v` and `SimdSeq.v` prove which
  packed outputs the weight modes produce and how their dimension relates to that of the
  word sequence (`SimdSpec.v`); `SimdProofs.v` follows the loops.  Exactness is refuted.
* C65-C69 (and C31) dSFMT: `DsfmtModel.v`, `DsfmtFixModel.v` (calc_fixpoint, over an
  oracle for NTL::XGCD).  `ViewLin.v` is a theory of linear generators given by a list of words (the view of the
  state), `DsfmtLin.v` the instance; `DsfmtPar.v` the parity search, `DsfmtSeq.v` the
  sequence; `DsfmtAffine.v` the generator with prefix, `AffineFix.v` fixed points and periods of affine maps,
  `DsfmtFix.v` and `DsfmtCert.v` calc_fixpoint and the certified period.  No irreducible factor of degree 521 stands
  beside the instance theorems.
* C70 (`DsfmtEquiModel.v`): `DsfmtEqui.v` shows that calc_dSFMT_equidistribution is
  calc_SIMD_equidistribution on the generator whose halves are shifted left by 12, so the abstract part of the proof
  of C64 (`SimdBits.v`, `SimdProofs.v`) applies; `DsfmtEquiSpec.v` is the specification.  Exactness is refuted.
* C71, C72 (`AnniModel.v`): Annihilate.cpp of dSFMTdc and sfmtdc. `AnniProofs.v` works over any
  linear generator with invertible transition: the loops collect least common multiples of
  minimal polynomials (invariant: multiple of the incoming polynomial, divides every common
  multiple); a state annihilated by the quotient L / f would make f^2 divide the characteristic
  polynomial, whose degree is less than 2 mexp. `AnniThm.v` has the two classes; for sfmt the
  output is the newest word, so the output determines the state.
* C73 (`SearchModel.v`): search() of sfmtdc.cpp, joined from C28, C31, C72, C36 and C64. `SearchSpec.v`
  says what a printed line means; `SearchLin.v` has the component of one irreducible factor with more
  than half of the degree (it is the kernel of f(A) and the span of any of its orbits, f is unique and
  simple); `SearchSfmt.v` shows that the parity vector changes nothing in the recursion, that the state
  seeded by anni is the one the search accepted (so anni never fails) and the loop by induction on
  the number of lines wanted.
* C74 (`SearchModel.v`): search() of dSFMTdc.cpp, in `SearchDsfmt.v` along the same lines, with C71 for the
  polynomial L, of which only L | characteristic polynomial and f | L are used: the cofactor of f maps
  the affine map to one whose fixed point is the image of the one computed (`AffineFix.v`,
  section Period), so the certified period does not need that L annihilates every state.
* C75 (`Mt2Model.v`, specification `Mt2Spec.v`): main of samples/MTDC/mt2.cpp. `RecTotal.v` strengthens C41 to a total
  account of AlgorithmRecursionAndTempering (a result, or a run of rejected parameters); `Mt2Proofs.v` shows that setUpParam
  is a function of two numbers, that the masks do not change the recursion, and follows the loop by induction on the
  number of searches; C40 gives the masks, C35 the exact defect.  `Mt2Ex.v` has a run with 127 bits.
* C76 (`MtgpDcModel.v`, specification `MtgpDcSpec.v`): main and indexed_search of samples/MTGPDC/MTGP32dc.cpp.
  `MtgpDcProofs.v` shows that setUpParam is a function of five numbers, that the tempering words do not change the recursion,
  instantiates RecTotal (the total form of C41) with two window searches (C39) and follows the loop over the ids by
  induction on count; C59 gives that the id can be read off the table.
* C77 (`RedTemperModel.v`, specification `RedTemperSpec.v`): AlgorithmReducibleRT.hpp. `RedTemperProofs.v` follows the object
  through the search for a large factor (PeriodProofs7), searchParity, the characteristic polynomial and the
  annihilation. If the factor's part of the state is not zero it stays so (the factor is not X), the factor divides
  the polynomial found, and the quotient leads into the component, which is one orbit span since n < 2 mexp;
  EquiProofs gives the dimensions. `RedTemperEx.v` runs the search on the rotation of three bits.
* C78 (`RmtDcModel.v`, specification `RmtDcSpec.v`): the program samples/RMT/rmt64dc.cpp without verbose, on top of RmtModel,
  ParityModel and RedTemperModel. `RmtDcProofs.v`: the generators of one exponent are a family (rd_family), the outputs
  determine the state of an invertible recursion (rmt_out_observable, by the bijective tempering and rmt_observable), the
  tempering search keeps recursion and state (temper_run, from C39), getParamString clears only mask bits without effect
  (C_clean); one_search combines C77, C31_rmt_partial and C31_rmt_undefined; loop_spec is the induction over the lines.
* C79 (`RmtCalcModel.v`, specification `RmtCalcSpec.v`): samples/RMT/calc_period.cpp and calc_equidist.cpp with their
  command line: the text of getParamString, strtoull, para++ (past the end: undefined). `RmtCalcRead.v` proves that the text is
  read back. The second minpoly() call of calc_equidist, whose result is not used, advances the state; because of that the
  state is in the component of the factor also for singular recursions: what the numbers do not show dies out in `size` steps.
* C80 (`PerTestModel.v`, specification `PerTestSpec.v`): samples/sfmtdc/test_period.cpp with its command line and
  min_max_poly, on the model of anni of C72. `ModeAnni.v` proves anni for every start mode and weight mode: the words of the array
  are a linear generator with an invertible transition, the word kept from the call before stands beside it and is, after one call, a
  linear function of the state (`okc`), although the transition of the whole object is singular (C60). `ModeTable.v` has
  min_max_poly and the table, `SfmtMode.v` the instance for sfmt, `PerTestRead.v` the reading of the text.
* C81: samples/dSFMTdc/calc_period.cpp, in the same files; `DsfmtMode.v` is the instance for dSFMT, `PerTestDsfmt.v` the program.
* C82: samples/dSFMTdc/calc_fixpoint_main.cpp and calc_parity_main.cpp without the option -c: `FixParModel.v`
  (on the models of C69, C70 and of the reading of C79), `FixParSpec.v` (large factor, fixed in the component,
  certifying vector), `FixParProofs.v`. The first steps (seed, minpoly, hasFactorOfDegree) are common; the factor is
  simple and unique because its degree is more than half of the dimension, so that both programs find the same one
  whatever their seeds are. `AffineFix.v` and `DsfmtCert.v` give the period for any fixed point and parity vector.
* C83: samples/sfmtdc/calc_equidist.cpp and samples/dSFMTdc/calc_equidist.cpp: `EqMainModel.v` (on the models of C64, C70, C72
  and of the reading of C80, C81), `EqMainSpec.v` (dimensions of the words, states of the component, tables), `EqMainSeq.v` (the words
  of two non-zero states of a component are sums of shifted copies of each other, hence have the same dimensions),
  `EqMainProofs.v` (this for sfmt and dSFMT), `EqMainProg.v` (the programs; reversing the output bits does not change the transition).
* C84: samples/sfmtdc/calc_parity.cpp: `ParMainModel.v` (the class of C63, the reading of C80, searchParity of C29, and the loop
  of test_parity0), `ParMainSpec.v` (a certifying vector, the verdict of the check), `ParMainProofs.v`. The key points: a state
  annihilated by f has a small minimal polynomial and an even number of common bits, the certification then changes one bit, and
  a state with a non-zero component in f has f in its minimal polynomial as soon as one other state has. The certification looks
  at state[0], the vector was computed for state[index]; both agree because the index is 0 after seed and after setZero and
  2 * 128 * size steps bring it back (`at0_run`).
* C85: test/tinymt32.h, test/tinymt32.c, class Tiny32, test_equidist.cpp: `TmtModel.v` (status[4] as a quadruple with indexed
  access; floating point results as exact rationals, the bits of the union decoded by `f32_bits`), `TmtSpec.v`, `TmtProofs.v`,
  `TmtProofs2.v`. The steps are those of `TinyModel.v`, so C43 gives invertibility and period; the loop of tinymt32_init is inverted
  word by word (odd multiplier, xorshift) for the distinctness of seeds; test_equidist follows from the defect 0 of the published
  parameters and the independence of the starting state.
* C86: test/tinymt64.h, test/tinymt64.c, class Tiny64: `T64Model.v` (status[2] as a pair; doubles as exact rationals). `T64Lin.v`
  shows linearity on 127 bits and invertibility through the general lemmas of `LinInst.v`; `T64Proofs.v` proves the period by a
  certificate (an annihilating polynomial, one jump of 2^127-1 steps, primality of 2^127-1), seeding by invariants and the
  injectivity of every turn of the seeding loop, the doubles from the bit pattern.
* C87: test/test_period.cpp: `TestPerModel.v` (the parts about Tiny32 and Tiny64, the table). The minimal polynomial is that of the
  whole sequence (C09), which has the full degree because the step matrix has order 2^127-1 (`minpoly_full`). For the table, the
  witness is the minimal polynomial of the r-th power of a primitive element of GF(2^128), r = 67280421310721: an element whose
  order (2^128-1)/r lacks only the missing prime (`power_poly`, `wrong_table`).
* C88: class RTiny32, is_irreducible, is_prime2: `RTinyModel.v` (state as the record of the xorshift classes). The period by the same
  kind of certificate as the xorshift generators (C52). Reducibility: a product of two polynomials annihilates the state, neither factor
  does, seen in the lowest output bit (`reducible_cert`). Not primitive: a jump by (2^128-1)/3 steps returns to the state (`nonprime_cert`).
* C46, C47 (`W128Model.v`): the union of four 32-bit and two 64-bit words, little
  endian, and the periodCertification functions of SFMT and dSFMT.
* C49: the second use of an equidistribution object, on the model of C32.
* C51, C52 (`SampleModel.v`): the xorshift search programs, and period and
  equidistribution of the published xorshift128 parameters.
* C31 (`ParityModel.v`): the search is modelled over an abstract generator with
  parity words (`ParitySpec.v`); kernel of a matrix and calc_1pos enter by their
  specifications.  RMT64 is shown to meet the contract (`RmtParity.v`).  The instance
  theorems for RMT64 have no concrete irreducible factor of degree 521 beside them;
  the general theorems have a small complete example (`ParityEx.v`).

## Findings (disagreements between the English claim and the code)

Those with a theorem name are proved of the model; the others were noticed
while reading and are outside the modelled part.

Undefined behaviour:
* `calc_1pos` negates INT_MIN for the word with only the top bit set
  (`C03_..._refuted`), so `AlgorithmEquidistribution` with 32/64-bit words is, read
  strictly, undefined for every generator with a non-constant leading bit
  (`C33_..._refuted`) and so is the program xorshift-2 (C52).  w128 `calc_1pos` likewise (C46).
* `fromGF2Vec` and `setBitOfPos` in the parity search evaluate a shift by -1 in every call
  (C07, `C31_strict_refuted`).
* `RMT64Search::setOneBit` shifts the int 1 by up to 63 (C45); the parity search
  on RMT64 with more than 32 bits beside the exponent therefore always reaches it
  (`C31_rmt_undefined`).
* The constructors of MT32Search and mtgp32 shift by 32 when 32 divides the exponent
  (C44, `C58_new_undefined`).
* `lshift128` / `rshift128` by 0 bytes shift a 64-bit word by 64 (C46).
* AlgorithmBestBits with eight or more parameters, AlgorithmPartialBitPattern with
  windows of 31 bits or more (C39, C40).

Wrong results:
* `hasFactorOfDegree` does not end for a negative degree (C24); `isPrime` with a factor list accepts X with
  degree 1 (`C21_X_refuted`); `LCM(0, 0)` aborts (`C10_zero_refuted`).
* `isZero` of the MT samples and of mtgp32 masks the newest word instead of the
  oldest (C44, C58); mtgp32 moreover uses a member that nothing sets.
* The copy constructor of TinyMT32 drops `reverse_bit_flag`, so the tempering search from the least
  significant bits optimises the wrong defect (C43: 6 measured, 207 real).
* `xorshift128_init_by_array` ignores its key (C48).
* The searches for xorshift parameters include zero shift counts, which are
  not bijective (C42).
* `search_best_temper` of AlgorithmBestBits also returns candidates that are not
  minimal, does not call setUpTempering before measuring, and for three or more
  parameters starts its walk in a row that is cut off (C40).
* `searchParity` loops forever if the parity words of a non-zero kernel
  state vanish forever (`C31_returns_refuted`).
* AlgorithmReducibleRecursionAndTempering reports the defect with respect to bitSize() although only the component of
  degree mexp is left, so delta is too great by at least bitSize() - mexp (`C77_excess`, `C77_delta_refuted`).
  It also goes on with the state into which searchParity has stored the parity vector; that this state still
  has a part in the component is a hypothesis of C77 (`alive`). Its search with one tempering algorithm does
  not compile when it is used.
* rmt64dc cannot find invertible recursions for 11 of its 15 exponents: searchParity reaches setOneBit(32), whose
  shift of an int is undefined (`C78_singular`, `C31_rmt_undefined`); what it prints without that are singular recursions.
  The test of a recursion uses the masks of the line before.
* The usage message of calc_period and calc_equidist (RMT) names the order mexp,pos,mata,mskb,mskc,parity; the programs read
  parity before the masks, as getParamString prints it (`C79_usage_order_refuted`). delta of calc_equidist counts from mexp, delta of
  rmt64dc from the size of the state (`C79_agrees`).
* test_period (sfmtdc) seeds with a w128_t of which three words are not initialised, so its numbers may differ from run to run; its
  parser reads behind the end of a line that is too short (`C80_short_refuted`).
* calc_period (dSFMTdc) has the same seed, and looks at the bits 0 to 51 and 64 to 103 of the outputs where the bits in use are 0 to 51
  and 64 to 115 (`C81_bits`): its minimum says nothing of 12 of the 104 bits.
* dSFMTdc calc_fixpoint, calc_parity: u64[1] of the seed is not initialised (the result of C82 holds for every value);
  main of calc_fixpoint returns 0 also when no factor is found, calc_parity returns -1 then.
* calc_equidist of sfmtdc and dSFMTdc: u64[1] of the seed is not initialised and the default seed is clock(), so that whether a
  line is printed may differ from run to run; the numbers for 128 bits do not (`C83_same`). The usage text of the dSFMTdc program
  offers -r, which is not among its options.
* calc_parity of sfmtdc (C84): main returns false, that is exit status 0, when no factor is found; the upper half of the first
  seed is not initialised. periodCertification reads state[0], not state[index]; the check is right only because every call of
  it happens at index 0. Two of the branches for a wrong vector (lines 95 and 104) do not set point, so that their
  message would name seed 0; they are never reached with a vector from searchParity.
* test/tinymt32.h: generate_floatOC advances the state twice (`C85_floatOC_refuted`); tinymt32_init_by_array overflows for
  key_length = INT_MAX.
* mtgp32 `setUpParam` guards single table entries only and may choose a
  table for which the recursion is not invertible (`C59_singular`); it ends the program for sizes below 8.
* `calc_SIMD_equidistribution` (sfmtdc; likewise `calc_dSFMT_equidistribution`, `C70_exact_refuted`) drops the words before the first full
  block and so reports too small dimensions (`C64_exact_refuted`, `C64_limit`): with an odd exponent the total
  defect is never 0 even for an optimal generator.
* A fresh sfmt object has shift counts 0, so generate() before setUpParam is
  undefined (`C60_fresh_refuted`); setUpParam with an array of two words divides by zero (`C63_two_words`).
* dSFMT `isZero` in weight mode 1 tests the wrong half of the previous block (`C65_isZero_refuted`);
  bitSize() misses 52 bits in that mode; setUpParam with two words divides by zero (`C67_two_words`).
* TestLinearity accepts some non-linear generators (C38).
* TinyMT32 `setUpParam` shifts out the top bit of the number: numbers from 2^31 on repeat (C53).
* The Mersenne exponent table misses 24036583 (larger than anything proved here).
* `getCharacteristicPolynomial` of the reducible search is the minimal polynomial
  of the bit-0 sequence only (C28).

Noticed, not modelled: implicit copies of AlgorithmPrimitivity, MersenneTwister and
AlgorithmReducibleEquidistribution delete the same object twice; searchParity leaks `work_base.rg`; mt2 uses
`opt.seed` uninitialised without -s; the xorshift-4 constructor leaves `pat`
uninitialised; mtgp32 `getParamString` prints an uninitialised `sha1[1]`; the dSFMT(int) constructor leaves fix1, fix2 and the array uninitialised;
calc_equidist, calc_period and test_linearity of dSFMTdc seed with half of an uninitialised `w128_t`; RMT64 `getParamString` alters the masks (C57 shows that this is
harmless); sfmtdc's calc_parity and calc_equidist print half of an uninitialised `w128_t`; tinymt32dc's `int i` overflows after 2^31 lines with --all.
Wrong table in the tests: test_period.cpp:110 and test_rtiny.cpp:20 have 672804213107211 for 67280421310721 (`C87_table_refuted`,
`C87_isPrime_refuted`).
Noticed in test_rtiny.cpp: `prime` is never set, so the loop is never left early.

## Print Assumptions

`Uint63.*` and `PrimInt63.*` are the machine integers of Coq's standard library
and the axioms that describe them; they enter through the Lucas-Lehmer
computations of C22 only.

<!-- assumptions -->
393 theorems, 389 of them "Closed under the global context".  The others:

* `C22_exact_607`, `C22_isMexp_sound_partial`, `C22_isPrime_sound_partial`, `C26_mersenne_small`: `PrimInt63.add`, `PrimInt63.eqb`, `PrimInt63.int`, `PrimInt63.land`, `PrimInt63.leb`, `PrimInt63.lor`, `PrimInt63.lsl`, `PrimInt63.lsr`, `PrimInt63.ltb`, `PrimInt63.mul`, `PrimInt63.sub`, `Uint63.add_spec`, `Uint63.eqb_correct`, `Uint63.eqb_refl`, `Uint63.land_spec`, `Uint63.leb_spec`, `Uint63.lor_spec`, `Uint63.lsl_spec`, `Uint63.lsr_spec`, `Uint63.ltb_spec`, `Uint63.mul_spec`, `Uint63.of_to_Z`, `Uint63.sub_spec`.

Closed under the global context:

* `AnniProps.v`: C71_getLCMPoly_dsfmt, C71_annihilates_all, C71_getLCMPoly_sfmt, C72_anni_dsfmt, C72_anni_sfmt, C72_measure_dsfmt, C72_measure_sfmt
* `DsfmtEquiProps.v`: C70_dsfmt_equi_partial, C70_limit, C70_exact_refuted, C70_recurrent, C70_words
* `DsfmtProps.v`: C65_linear, C65_output, C65_dimension, C65_defined, C65_state, C65_isZero, C65_invertible, C65_not_invertible, C65_seed, C65_new, C65_size, C65_isZero_refuted, C66_sequence, C66_modes, C66_recursion, C67_setOneBit, C67_unit_vector, C67_setUpParam, C67_two_words, C31_dsfmt_contract, C31_dsfmt, C68_doubles, C68_affine, C68_seed, C69_fixpoint, C69_throws, C69_certified_period, C69_quotient
* `EqMainProps.v`: C83_sfmt, C83_same, C83_dsfmt
* `EquiProps.v`: C32_dimension, C33_no_exception_partial, C34_sums, C35_maximal_period, C36_later_state, C36_any_nonzero_state, C49_single_use, C32_calc_1pos16, C32_calc_1pos32, C32_calc_1pos64, C33_strict32_refuted, C33_strict64_refuted, C33_xorshift_refuted, C32_xorshift2
* `FixParProps.v`: C82_calc_fixpoint, C82_calc_parity, C82_pipeline
* `LinTestProps.v`: C38_accepts_linear, C38_rejection, C38_exact, C38_incomplete, C38_xorshift
* `MTProps.v`: C11_mt19937_stream, C11_sequence_exists, C12_history_independent, C12_low_32_bits, C12_init_by_array, C12_chain_exists, C13_no_indeterminate_read, C13_no_indeterminate_read64, C14_temper32_bijection, C14_temper64_bijection, C15_mt19937_64_stream, C15_sequence_exists, C15_history_independent, C15_init_by_array64, C16_widths32, C16_widths64, C17_seeded_state_nonzero32, C17_seeded_state_nonzero64, C17_outputs_nonzero32, C17_outputs_nonzero64, C17_linear_bijection32, C17_linear_bijection64
* `Mt2Props.v`: C75_mt2, C75_line
* `MtdcProps.v`: C44_linear, C44_output, C44_state, C44_invertible, C44_mt19937, C44_mt32_new, C44_mt32_setUpParam, C44_mt32_setTemperingPattern, C44_mt32_new_undefined, C44_isZero_refuted, C44_isZero_partial, C55_same_sequence, C56_any_outputs, C56_dimension, C56_mt127
* `MtgpDcProps.v`: C76_mtgp32dc, C76_line, C76_distinct
* `MtgpProps.v`: C58_linear, C58_output, C58_state, C58_invertible, C58_untempered, C58_new, C58_new_undefined, C58_isZero_refuted, C58_isZero_partial, C59_setUpParam, C59_ids, C59_exit, C59_small_sizes, C59_singular, C59_setPattern, C59_setPattern_undefined, C59_setUpTempering
* `ParMainProps.v`: C84_calc_parity, C84_check
* `ParityProps.v`: C31_strict_never, C31_strict_refuted, C31_certifies_partial, C31_returns_partial, C31_returns_refuted, C31_throw_partial
* `PerTestProps.v`: C80_test_period, C80_complete, C80_text, C80_short_refuted, C81_calc_period, C81_complete, C81_bits, C81_text
* `PeriodProps.v`: C09_digits, C09_injective, C10_lcm, C10_alias, C20_minpoly, C21_decides, C21_any_list, C24_factor, C25_string_table, C25_stream_table, C26_mersenne, C26_table, C27_search, C27_returns, C28_search, C29_annihilate, C30_charpoly, C37_component, C37_state, C09_zero, C10_zero_refuted, C20_unique, C20_position, C21_returns, C21_X_refuted, C22_isMexp, C22_isPrime_partial, C24_zero_polynomial, C24_negative, C24_terminates_refuted, C25_digit_strings, C27_good_full, C27_full_good, C29_annihilating, C29_compose, C30_full_degree
* `PrimeProps.v`: C23_tables, C23_texts, C23_exponents, C26_shipped, C22_24036583
* `RecTemperProps.v`: C41_search
* `RedTemperProps.v`: C77_search, C77_returns, C77_excess, C77_delta_refuted
* `RmtCalcProps.v`: C79_reads, C79_period, C79_equidist, C79_agrees, C79_usage_order_refuted
* `RmtDcProps.v`: C78_lines, C78_count, C78_singular
* `RmtParityProps.v`: C31_rmt_contract, C31_rmt_partial, C31_rmt_undefined
* `RmtProps.v`: C45_setOneBit_partial, C45_unit_vector_partial, C45_bit31, C45_high_undefined, C45_setParityValue, C45_setOneBit_refuted, C57_linear, C57_output, C57_state, C57_isZero, C57_invertible, C57_any_outputs, C57_new, C57_setUpParam, C57_getParamString
* `SampleProps.v`: C51_xorshift3, C51_xorshift4, C52_period_5_14_1, C52_period_20_11_7, C52_xorshift128_period, C52_xorshift1, C52_xorshift2, C52_equidistribution, C52_xorshift2_strict_refuted
* `SearchProps.v`: C73_sfmtdc, C74_dsfmtdc
* `SequentialProps.v`: C18_enumerates_all, C18_enumerates_from_seed, C19_refines, C19_values_in_range, C19_output_widths
* `SfmtProps.v`: C60_linear, C60_output, C60_defined, C60_state, C60_isZero, C60_invertible, C60_not_invertible, C60_seed, C60_new, C60_size, C60_fresh_refuted, C61_sequence, C61_modes, C61_recursion, C62_setOneBit, C62_unit_vector, C63_setUpParam, C63_two_words, C31_sfmt_contract, C31_sfmt, C31_sfmt_calc_1pos
* `SimdProps.v`: C64_simd_partial, C64_limit, C64_exact_refuted, C64_recurrent, C64_words
* `T64Props.v`: C86_linear, C86_invertible, C86_period, C86_init, C86_init_by_array_partial, C86_init_by_array_refuted, C86_seeds_partial, C86_Tiny64, C86_doubles, C86_ranges
* `TemperProps.v`: C39_search, C39_windows, C39_windows_inside, C39_outside, C39_never_worse, C39_wide_window_undefined, C40_search, C40_search_best_refuted, C40_stale_refuted, C40_eight_parameters_undefined
* `TinyProps.v`: C43_linear, C43_output, C43_state, C43_isZero, C43_invertible, C43_st32, C43_stlsb32, C43_clone_partial, C43_clone_refuted, C43_lsb_defect_refuted, C43_lsb_tempering_refuted, C43_published, C53_distinct, C53_odd, C53_top_bit_refuted, C54_program
* `TmtProps.v`: C85_sequence, C85_init, C85_init_by_array_partial, C85_init_by_array_refuted, C85_period, C85_seeds, C85_published, C85_floats, C85_ranges, C85_floatOC_refuted, C85_Tiny32_linear, C85_Tiny32_isZero, C85_test_equidist
* `UtilProps.v`: C01_count_bit16, C01_count_bit32, C01_count_bit64, C02_reverse_bit32, C02_reverse_bit64, C03_calc_1pos16, C03_calc_1pos32_refuted, C03_calc_1pos64_refuted, C03_calc_1pos32_partial, C03_calc_1pos64_partial, C03_calc_1pos32_wrapping, C03_calc_1pos64_wrapping, C03_position_unique, C04_floor2p, C04_floor2p_zero, C05_get_range, C05_get_range_exit, C05_get_range_overflow, C06_fill_table, C06_fill_table_linear, C07_toGF2Vec, C07_round_trip_refuted, C07_fromGF2Vec_always_undef, C07_from_to_partial, C07_to_from_partial, C08_getBitOfPos, C08_setBitOfPos
* `W128Props.v`: C46_injective, C46_shift_right, C46_shift_left, C46_shift_range, C46_mask, C46_mask_range, C46_and, C46_or, C46_xor, C46_not, C46_equal, C46_isZero, C46_constants, C46_getBitOfPos, C46_setBitOfPos, C46_pos_range, C46_reverse_bit, C46_calc_1pos_wrapping, C46_calc_1pos_partial, C46_calc_1pos_refuted, C46_rshift128, C46_lshift128, C46_byte_shift_range, C47_certified, C47_change, C47_zero_parity, C47_dsfmt_certified, C47_dsfmt_change
* `XorshiftProps.v`: C42_linear3, C42_linear4, C42_linear5, C42_vector_faithful, C42_isZero, C42_parameters3, C42_parameters4, C42_bijective_refuted, C42_bijective3_partial, C42_bijective4_partial, C42_bijective5, C42_bijective1, C48_key_ignored_refuted, C50_init_injective, C50_never_zero, C50_seed_nonzero
* `TestPerProps.v`: C87_minpoly_32, C87_minpoly_64, C87_period_u32, C87_period_u64, C87_is_irreducible, C87_is_prime, C87_table_refuted, C87_isPrime_refuted
* `RTinyProps.v`: C88_seed, C88_period, C88_default, C88_reducible, C88_nonprime, C88_is_irreducible, C88_is_prime2
<!-- /assumptions -->
