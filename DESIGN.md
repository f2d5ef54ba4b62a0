# Formal model of e-antic: design

The source under `/repo` is read as text; nothing is compiled or run.
`properties.jsonl` states the properties, `rocq/theories` holds the model,
the specifications and the proofs, `MANIFEST.json` says which theorem settles
which property, `seeded/LOG.jsonl` logs the seeded-bug experiments.  Where the
property noted for an edit was not among those of the theorems that failed, the
log gives the properties that failed as `claim` and keeps the first note as
`claim_first_recorded`.

How to read the log.  Most edits were generated definition by definition by
scripts, applied one at a time to a copy, and the copy rebuilt in at most four
rounds; a lemma whose proof broke was set aside so that the build could go on.

* `failed_lemmas` is what was observed.  That a proof script breaks does not show
  that the statement is false for the edited model.
* `failed_theorems` is derived: the property theorems whose proofs use, by name,
  one of these lemmas.  It is therefore an upper bound.  For the first batches it
  is computed over the present files and can name theorems written after the run.
* `survived` marks edits after which everything still built.  The note says why
  (mostly that the edit does not change the function where it is used) or what
  was added; these judgements of equivalence were made by reading, not proved.
* Edits after which the edited file itself did not compile are left out.
* Ids that were used twice carry the number of the batch (`b15-x01`).  Earlier
  versions of the log did not distinguish all of them and showed the notes of
  `w02`, `x01` and `x21` at the later edits of the same name as well.

## Layout

| file | content |
|------|---------|
| `theories/*Model*.v` | executable model, function by function, with citations |
| `theories/*Spec*.v` | small specifications over the real numbers / over histories, independent of the model |
| `theories/*Proofs*.v` | proofs |
| `theories/Properties*.v` | the property theorems only, each closed by `exact`, followed by `Print Assumptions` |

Mathematical reals are those of the Coq standard library.

## What is modelled and how (plan per property)

| property | model | method |
|---|---|---|
| C01 | `_fmpz_poly_descartes_bound_0_1` on coefficient lists, with its early exits | result = sign variations of the transformed polynomial; roots bounded by Descartes' rule proved on lists of reals |
| C02 | VCA loop with fuel | loop invariant over dyadic nodes |
| C03 | same | compactness of [0,1] and Bernstein coefficients |
| C04 | the counting wrappers | from C02, C03 |
| C05 | `local_max` bound | refutation witness; soundness for few sign changes; the bound is right up to a factor of two (5/2 with zero coefficients): weights of the coefficients as an invariant of the outer loop |
| C06 | `fmpz_poly_isolate_real_roots`, `fmpz_poly_num_real_roots_vca` | from C02: the roots between the computed bounds, all roots under a correct bound; refutation otherwise |
| C07 | `fmpz_poly_num_real_roots_upper_bound` | as C05 |
| C08 | counts of slots; the list of embeddings | comparison of the counts, no assumption on the bound; isolating balls for the sorted roots |
| C09 | `has_real_root`, FLINT count as oracle with contract | parity arguments |
| C10 | Sturm count | refutation witness; Sturm's theorem proved on real polynomials with zeros at the ends of the interval: the result is the number of roots in [0,1] plus the number of later members vanishing at 0, so it is right exactly when there is none |
| C11 | `scale_0_1_fmpq` | algebra |
| C12 | squarefree part, gcd as oracle with contract | multiplicities |
| C13, C14 | Horner ball evaluation over an arb contract | induction |
| C15, C16 | Newton and bisection step | mean value theorem, intermediate value theorem |
| C17 | uniqueness check | monotonicity; refutation for rounded end points; acceptance at sufficient precision from the rate of convergence, and at an explicit precision for balls below an explicit radius |
| C18 | refinement loop | loop invariant; safe radius from rates of convergence, and an explicit one (`margin`, FineSpec.v) from the documented rounding, the same for every such arithmetic |
| C19 | field equality | overlap; refutation |
| C20 | generator | refutation for degree one, proof otherwise |
| C21 | element functions over an arb and nf_elem contract | induction over histories; refutation by leaving the root |
| C22 | the exact parts of the same functions | case analysis, no assumption on balls; refutation for rational / element |
| C23-C25 | sign and comparison loops with fuel | partial correctness; refutations by leaving the root and for tiny generators |
| C26, C27 | rounding template, floor division | the same |
| C28 | continued fraction loop | loop invariant; the same refutations |
| C29 | get_arb | enclosure and relative accuracy; the same refutations |
| C30 | get_d over real numbers and IEEE doubles | correct rounding proved from first principles; refutations for double rounding and overflow |
| C31 | all of the above | corollaries; refutation by two histories |
| C32 | character level parser | grammar with values as specification, both directions; refutations for leftovers, malformed strings, white space |
| C33, C34 | printing and stream extraction on character lists | inversion under a contract for the printer; refutations for parentheses, names, blanks |
| C35, C36, C38 | transition system for registry, reference counts, handles and element storage in one thread, over a contract for hash and equality of fields | invariant of all histories; leaks and moved-from elements as refutations; the contract proved for the library's hash and equality when enclosures of different roots do not overlap |
| C37 | interleavings of any number of threads, atomic steps | schedules as refutations; invariant of all executions that do not revive a field, absence of deadlock |
| C41 | hash, the double of the element | uniqueness of rounding for irrational numbers, of the canonical form for rational ones |
| C39, C40, C42, C43 | C++ operators on a world of fields and objects, over the C functions | case analysis; all programs over these calls; refutations for the order (as C23), INT_MIN and floor division across fields |
| C44 | numerators, denominators, conversions to GMP types | uniqueness of the canonical form |
| C45 | exact predicates | uniqueness of the canonical form |
| C46 | immutability flag | case analysis over all calls, no contract needed |
| C47 | save and load of archives as lists of tokens; addresses of fields, the identifiers of cereal, the registry with any fields in it | invariant between the identifiers of both sides; refutation witnesses, one for all printers and readers |
| C48 | the loop of `renf_class::make`, with parser, ball reader, check and creation | case analysis of the runs; termination of the check; creation from small balls at sufficient precision; refutation witnesses |
| C49 | refinement and creation of fields | refutation witness; otherwise induction over the refinement loop: working precisions stay at least 2 because the condition number is at least 1 when the constant coefficient is not 0, so only the accuracy can overflow |
| C50 | creation of all embeddings | creation from small intervals at sufficient precision; refutation witness |
| C51 | the same loop, counting the temporaries left | case analysis; refutation witness |
| C52 | the patched `fmpq_poly_add_fmpq` | case analysis of the common factors |
| C53 | strings in byte blocks with sizes; a read or write outside, or of an unset byte, is undefined | the contents after each call |
| C54 | refinement loop | rates of convergence of Newton and bisection steps from a contract for ball arithmetic, also below an explicit radius; an endless loop as refutation |
| C55 | all loops over elements | convergence of the enclosures; irrational numbers are told from rational ones at some precision |
| C56 | all of C21-C31 | absence of aborts and undefined behaviour added to termination and correctness; undefined behaviour for a tiny generator as refutation |
| C57 | `renf_elem_check_embedding` | enclosures contain the value; from sharp fields the evaluation misses a wrong enclosure |
| C58 | creation from n-th roots, `arb_root_ui` as parameter | uniqueness of the root for odd n, and near a positive root; negative numbers as refutation |
| C59 | `fmpz_poly_randtest_irreducible`, the random choices as input | reduction modulo the prime keeps the degree; the prime is divided out of the factors as in Gauss's lemma |
| C60 | `renf_randtest`, the random choices as input | C06 and C59; the polynomial x as refutation |
| C61 | `renf_init_set`, `runs`, `renf_equal` | the copy is the source without its mark; the invariant of all histories (`hist_ok`) for both |
| C62 | `poly_string` | the text is of the documented form, then C32/C33 |
| C63 | the floating point computation, correctly rounded | relative errors; a lost interval as refutation |
| C64 | printing of fields, the regular expressions, the choice of the root | matching of each shape of polynomial; negative and fractional leading coefficients as refutations |
| C65 | conversion of vectors, pickling, `_rational_`, `_integer_` | vectors below the degree of the same value are equal |
| C66 | constructors and assignments of C++ elements | effect of the C functions called |
| C67 | the loop of `renf_class::make` with a callback | the count of roots ends on every interval, two roots are refused; the test accepts when the root keeps a distance from the ends that shrinks with the square of the precision's unit |
| C68 | `RealEmbeddedNumberField.__init__` | reading of the printed polynomial, then C67 and C64 |
| C69 | operators derived by boost::ordered_field_operators | reduce to the compound assignments (C39), the constructors (C66) and the relations (C40) |
| C70 | temporaries of the functions of src and srcxx, as programs with open conditions | a flow analysis, proved sound for all executions, is computed on each program; two functions with their answers traced |
| C71 | the calls of ElemModel.v again as programs of single reads and writes of exact parts, enclosures, the field and its mark (ConcModel.v) | the programs run alone are the calls of ElemModel.v; a footprint invariant for all interleavings; right answers for calls on a marked field, which is never refined, so nothing is assumed on the ball of the generator; two threads on one element as refutation |
| C72 | the methods of RealEmbeddedNumberFieldElement over the C++ operators of CxxModel.v (SageModel.v) | exact results from C39, relations from C40, conversion by coefficients; two witnesses of elements in the wrong parent, division by zero for all worlds |
| C73 | streams with their field over LifeModel.v (StreamLifeModel.v) | reading is a sequence of legal operations of C35 when the field is alive (a counted pointer to a live field is one from a handle, an element or the static variable); witnesses in the toy instance of C35 |
| C74 | the text of an element assembled in memory from `get_d` and the printers (`PrintModel`) | error of rounding to nearest, twice for fractions, then the digits cut off by `arb_get_str` (contract `show8_ok`) |
| C75 | the dispatch of `for_eantic`, `make_renf_elem_class` and the operators on the type of the argument, with GMP's reading of numbers written out (`PyArgModel`) | numbers survive being written and read; then C66, C69, C32; what is no number is refused by every branch |
| C76 | the degree of a field (`SubfieldModel`) and the subfield generated by a number, defined without polynomials | the values of canonical elements are closed under the field operations by the arithmetic of `nfc`; uniqueness as in C65 |
| C77 | executions of ThreadModel.v with the memory orders of the counter and signals of the program (HbModel.v) | happens-before as the closure of program order, lock, signals and release/acquire pairs; the invariant of C37 locates the last drop, the insertion and the lock; a set of steps closed under happens-before as refutation |
| C78 | `_fmpz_poly_evaluate_arf/arb`, `fmpz_poly_evaluate_arf/arb`, `fmpq_poly_evaluate_arf/arb` on objects in memory (EvalModel.v) | the copy made when result and argument coincide turns the loop into Horner's scheme; each rounding contributes a factor within 1 +- 2^-prec, induction over the coefficients; enclosures as in C13 |
| C79 | `operator>>`, the string constructor (StrModel.v: read_paren, read_any) | induction over the characters: what is read between parentheses is the text without white space; the documented form is closed under dropping blanks (strip_form) |
| C80 | `renf_elem_relative_condition_number_2exp` (ElemModel.v: elem_cond; ArbModel.v: cond_2exp), `renf_elem_set_evaluation` | refuted with x - 2^k for x the root of 4^k + 2: every enclosure of the values on the ball has few correct bits (CondLoss.v: enclosure_poor); the absolute bound by induction over the coefficients (zeval_near) and C14 |
| C81 | `renf_elem_set_nf_elem` (ElemModel.v: KSetNf), `renf_elem_set_evaluation` (set_evaluation) | refuted with the generator of Q(sqrt 2) and the field made from a ball of radius 2^-66: the result contains two points of distance 2^-65 (SetAcc.v: two_poor); with a sharp field by convergence of the arithmetic (set_nf_sharp), with explicit bounds from the rounding of the arithmetic (SetExplicit.v) |
| C82 | `renf_init` and all of ElemModel.v and GetdModel.v, with `calls` (ConcSpec.v) collecting the answers | proof: Margin*.v give the hypotheses of the theorems of DefMain.v below the explicit radius `margin`, for every arithmetic meeting `arb_fl` and `arb_fine`; the answers are those of C71 |
| C83 | as C82 in degree one | proof by cases, elements being rational; get_arb left out (C29) |
| C84 | as C82 for programs of C++ objects in several fields: `xsteps` (CxxUseSpec.v) collects the answers, `right` says what a call should do to the fields and exact values, per call and independently of the model | invariant over the list: sound objects, enclosures below `margin` reached from the first ones; each operator returns (EndsProofs, DefProofs, LinearUse) and is right (CxxProofs, CxxSound, CxxMake) |
| C85 | `poly_abs` (AbsModel.v) on allocated coefficients, lengths and objects that may be the same; reading or writing outside is undefined; `fit_length` and `set_length` are FLINT's, with any further allocation | invariant of the loop over both objects |
| C86 | `fmpz_poly_newton_step_arb` and `fmpz_poly_bisection_step_arb` on objects in memory (StepModel.v) | refuted for Newton in place with x^2-4x+2, where the derivative evaluated in place is exactly 0 in every arithmetic with `arb_fl`; otherwise the value functions of C15 and C16 are what the statements compute, by following each object through them |
| C87 | isolate_real_roots.c again with arrays, counters and NULL (ArrModel.v); an entry outside of an array is undefined | the lists of RootModel.v are the first entries: the loop appends (`vca_arr_ok`), the loops over indices are maps, the swaps reverse (`swp_times_go`); room from C08_slots, roots from C06_within |
| C88 | the three callers of isolate_real_roots.c with the arrays they allocate, uninitialized memory as an arbitrary function (CallArrModel.v) | the entries read are those of the lists (`fresh_filled`), so the callers agree with EmbModel.v, ToolsModel.v and RootModel.v; one interval per distinct real root, hence fewer than coefficients (`ints_lt_length`) |
| C89 | four routines again as they are written, with indices, arrays and 64-bit words; outside of these it is undefined (IdxModel.v) | loop by loop equal to RootModel.v and ExtraModel.v: the live part of the array is the list (`desc_loop_idx`), the marks WORD_MIN and WORD_MAX are `None` (`inner_ok`, `outer_ok`) as all values stay below 2^62 |
| C90 | ArrModel.v again with the routines of IdxModel.v, words and assertions (IsoIdxModel.v) | equal to ArrModel.v step by step: `vca_agree` carries 0 <= c < 2^k and k + remaining turns <= 2^60, so that exponents written are small (`small_from`) and the later sums with the root bound, of at most 2^62, are words |
| C91 | four routines again with indices, words and, for evaluate.c, the places of the balls (LoopModel.v) | loop by loop equal to ExtraModel.v and ArbModel.v; the counter of Sturm stays below the length as every remainder is shorter (`sturm_step`); `put` for the places |
| C92 | set_str_pretty.c again with pointers as indices into arrays of characters (PtrModel.v) | equal to StrModel.v: `here a i s` says that the string s is at index i; every loop moves along such strings (`scan_ok`), the copy is the term with a terminator (`strncpy_ok`) |
| C93 | get_cfrac.c again with the array of the caller and a signed n (CfracModel.v) | equal to the list of C28 put in front of the rest of the array, by induction on the remaining steps; a negative n is returned as it is |
| C94 | the members that renf_init, renf_init_set, renf_clear, renf_elem_init and renf_elem_clear initialize and release, for sequences of calls (MemberModel.v) | the initialized members are those of the existing objects (`agrees`), by induction on the calls; what clients may do is in MemberSpec.v |
| C95 | the loops of sgn.c, cmp.c, cmp_fmpq.c, fdiv.c, get_arb.c, rounding_template.h and get_d.c again with precisions as words (PrecWModel.v, GetdWModel.v) | the same as ElemModel.v and GetdModel.v or undefined, or the abort for too many bits (`unless`); equal while there is `room` for the doublings, except for fdiv.c and get_d.c; refuted for the precisions WORD_MAX and WORD_MIN |

## Trusted base

* The Coq 8.16.1 kernel (including `vm_compute`, used for concrete examples).
* Axioms of the Coq standard library, as printed under each theorem (listed by theorem at the end):
  `ClassicalDedekindReals.sig_forall_dec`, `ClassicalDedekindReals.sig_not_dec`,
  `FunctionalExtensionality.functional_extensionality_dep` (all three from the
  real numbers) and `Classical_Prop.classic` (the same library, and the
  compactness argument of C03/C04/C06).  No other axiom is used.
* The reading of the C and C++ source by the model definitions, each of which
  cites the lines it transcribes.
* Contracts of external functions, which are hypotheses of the theorems:
  - `num` in C09: FLINT's `fmpz_poly_num_real_roots` tells whether p has a root;
  - `is_gcd`, `is_quotient` in C12: `fmpz_poly_gcd` and `fmpz_poly_div`;
  - `prem_ok` in C10: pseudo-remainder; met by `prem0` (PremProofs.v);
  - `fmpq_sum` in C52 (FmpqModel.v): `_fmpq_add` gives lowest terms;
  - in C74 `arb_get_str` writes exact doubles with eight digits and an error of at most one
    unit of the last one (`show8_ok`);
  - in C75 `cppyy_ok` (PyArgSpec.v): cppyy passes Python integers that fit a long unchanged to
    constructors and those that fit an int to the helpers of the operators, where it raises an
    exception or passes them unchanged otherwise; `objects_ok`: other objects are numbers if and
    only if they have `__mpq__` or `__mpz__`, which give their values; str of numbers of gmpy2 is
    the decimal text; `mpz_set_str` and `mpq_set_str` with base 0 are written out from GMP's manual;
  - in C53 the texts of antic and arb are C strings (`cstr`) and allocation
    succeeds;
  - `arb_ok` (ArbSpec.v): every ball operation encloses the exact result for
    precision at least 2; met by the concrete operations `dyops` (DyBall.v);
  - `arb_conv` (ArbSpec.v), used for termination only: results get sharp when
    operands are sharp and the precision is large; also met by `dyops`;
  - `arb_rate` (RateSpec.v), used for C54-C56, the `_total_partial` theorems, `C17_accepts_partial`, `C18_small_partial`, `C48_makes_partial` and `C50_small_partial` only: the error of a
    result is at most a multiple of the errors of the operands and of 2^-prec, and
    intervals and intersections become balls at most an eighth too large; also met by
    `dyops` (DyRate.v);
  - `arb_fl` (FlSpec.v), used for the `_flint_refuted` and `_margin_partial` theorems, `C81_refined_refuted` and C82 only: `arb_add_fmpz`, `arb_mul`, `arb_mul_fmpz` and
    `arb_set_interval_arf` round the midpoint towards zero and add at most an ulp for this to the radius,
    nothing if it is exact; radii are too large by a factor of at most 1+2^-16; intersections are hardly
    larger than the exact ones; `arb_div_fmpz` is right up to a few ulps.  This is how FLINT documents these functions; also met by `dyops` (FlProofs.v);
  - `arb_fine` (FineSpec.v), used for the `_margin_partial` theorems, `C30_overflow_flint_refuted`, `C36_flint_refuted` and C82 only: `arb_sub` rounds like `arb_add_fmpz`
    above, and the radius of `arb_div` is at most twice the propagated error (|m|s + |n|r)/(|n|(|n|-s)) and a few
    ulps; `arb_set_fmpq` is right up to a few ulps; also met by `dyops` (FineDy.v);
  - `nf_ok` (ElemSpec.v): antic's arithmetic maps canonical elements to the
    canonical form of the exact result; met by the concrete `nfc` (NfArith.v);
  - `zero_den_ok` (StrSpec.v): `fmpq_set_str` does not succeed on n/0;
  - `print_ok`, `approx_ok` (StrSpec.v): `nf_elem_get_str_pretty` writes the
    element's polynomial in the documented form, `arb_get_str` writes visible
    characters without parenthesis; `print_ok` is met by `print_elem` (StrMore.v);
  - `arf_get_d`, `arf_set_fmpq` (GetdModel.v) are written out as the correct
    rounding that arf.h documents, not taken from FLINT's code;
  - `registry_ok` (LifeSpec.v): fields of the same polynomial, root and name are
    equal and hash equally, others are not equal; `C36_contract_partial` derives it
    for the library's hash and equality (`fhash`, `feq` in LifeFields.v) from
    `setting` and disjoint enclosures, for hashes that return;
  - `std::hash<double>` (LifeFields.v): equal doubles have equal hashes;
  - `read_ok`, `show_ok` (MakeSpec.v): `arb_set_str` reads decimal balls and encloses
    them, `arb_get_str` encloses the ball and writes at most the wanted number of
    digits of the midpoint; met by `dec_read`, `dec_show` (MakeText.v);
  - `read_sharp` (CreateSpec.v), used for `C48_makes_partial` only: with growing precision the midpoint
    read by `arb_set_str` tends to the number written, and the radius is at most twice the one
    written up to a vanishing amount; met by `dec_read` (CreateMake.v);
  - `print_ok` again for `fmpq_poly_get_str_pretty`;
  - `root_ok`, `root_conv` (ToolsSpec.v), used for C58 only: `arb_root_ui` encloses the
    root and gets sharp; met by `dyroot` (ToolsModel.v);
  - `draw_ok` (ToolsSpec.v), used for C60: `fmpz_randprime` gives a prime and
    `fmpz_mod_poly_randtest_irreducible` a polynomial irreducible modulo it, or a
    constant, with coefficients in 0..c-1 and a leading coefficient other than 0;
  - `pow10_ok`, `show_float_ok` (PySpec.v), used for C63 only: `10.0 ** p` up to 2^-52, `str` of
    a double reads as a decimal number within 2^-53 of it; met by `pow10_fl`, `show_dec` (PyFloat.v);
  - `repr_ok` (PySpec.v), used for C68 only: SageMath writes polynomials in the documented form; met by `pretty`;
  - `sage_ok`, `roots_ok` (PySpec.v), used for C64 and C68 only: SageMath's polynomial rings read the
    documented form and refuse names that are not identifiers, `RealBallField` encloses, the real
    roots are complete; met by an instance in PyRefute.v.  `fmpq_poly_get_str_pretty` is written
    out as `pretty` (PyModel.v), after FLINT's documentation and not its code;
  - `div_near` (EvalSpec.v), used for C78 only: relative error 2^-prec of `arf_div_fmpz`; met by `qdiv`
    (EvalProofs.v).  `arf_mul` and `arf_add_fmpz` are written out as rounding to nearest, which is the
    mode 4 that the code passes;
  - `round_sharp` (ElemSpec.v), used for C29 only: error of `arb_set_round`; met
    by `dyops`.
* `safe_balls` (RefineProofs.v), a hypothesis of the `_partial` theorems on
  elements: a set of balls that isolate the root, also when rounded outwards to a
  precision that the refinement tries, and that the steps of the refinement do not
  leave.  All balls form such a set when the polynomial has one real root
  (`C18_single_root_partial`), and so do in every field the balls below a certain
  radius (`C18_small_partial`).  For large balls it is a genuine restriction (C18).

### Abstractions common to all models

* boost/operators.hpp (CxxOpModel.v) is not in the repository and is written out from its documentation.
* Integers are unbounded where the code uses `fmpz`; machine words are
  unbounded too unless the model says otherwise (`comp_prec`, the doubles and
  the words of IdxModel.v, IsoIdxModel.v, LoopModel.v, PrecWModel.v and GetdWModel.v).
* Memory management of temporaries is modelled apart from the values
  (TempModel.v): control flow and local objects are kept, conditions are not, so
  a program has at least the executions of its function.  Arguments, results, C++
  objects with destructors and the temporaries of called functions are left out.
  Two functions are traced together with their answers.
* Ball exponents are unbounded; NaN and infinite balls are one value `Top`.
* Running out of fuel in a loop is a distinct result, never a normal answer.

* Threads (ThreadModel.v): sequentially consistent steps; C37 says nothing about memory
  orders and data races.  C77 adds happens-before to these executions: a race is a pair
  of accesses that are not ordered, what a racing program then does is not modelled.
  Happens-before is written out after the C++ standard for the operations that occur
  (mutex, read-modify-write operations, signals of the program); allocation of memory
  is not a synchronisation.
* Threads on elements (ConcModel.v): a read or a write of an exact part, an
  enclosure or the mark is one step, and steps are sequentially consistent; in
  reality balls are written piece by piece, so that more can go wrong.  Calls of
  the C interface as in ElemModel.v; registry and counters are in ThreadModel.v.
* Lifetimes (LifeModel.v): memory addresses are names that the caller provides
  fresh, memory is never exhausted; the registry is a list with stored hashes,
  searched by hash and equality; elements are opaque values.

* Archives (MakeModel.v): the values written are given back in their order, which
  stands for cereal's binary, portable and text formats; identifiers do not run
  out.  That an address is used again
  after a field is gone is taken from the C++ memory model: the deleter given to
  cereal does nothing (cereal.hpp:33), so the archive does not keep the field.

### Not modelled

* FLINT, antic and arb themselves, beyond the contracts above.
* The debug output of `renf_print`; of `renf_clear` only which members it releases (C94).  (`renf_elem_swap` is the call
  `KSwap` of the programs; `renf_elem_randtest` is `KSetNf` with the drawn element.)
* `sage_conversion.py`, two aliases for functions of pyeantic.
* The rest of pyeantic (cppyy itself, pickling by cppyy, keyword arguments, the coercion framework of SageMath, which is assumed to call the methods with operands of one parent), the build system, and input/output other than to character lists.

## Findings

Each is a theorem `..._refuted` with a concrete witness. Where a witness runs ball
arithmetic (C08, C16-C31, C36, C40, C41, C43, C47, C48, C49, C50, C54, C55, C56) it runs `dyops`, which meets the contract but is not FLINT:
the code was never executed, so these show that the contract does not exclude the
failure, and are not observations of the library.  For C08, C16-C19, C21, C23-C31, C36, C40, C41, C43, C48, C49, C50, C56 and C69 the `_flint_refuted` theorems (PropertiesFl.v,
for C36 PropertiesLife.v, for C48 PropertiesMake.v) show that the failure happens with every arithmetic meeting `arb_fl` (and `arb_fine` for C36), FLINT's included.

| property | theorem | what goes wrong |
|---|---|---|
| C05 | `C05_root_bound_refuted` | the local-max root bound of x^4-x^3-x^2-2x-2 is below its positive root |
| C06, C07 | `C06_isolation_refuted`, `C07_upper_bound_refuted` | hence roots are missed by the isolation and the count |
| C08 | `C08_root_refuted`, `C08_all_roots_refuted`, `C08_root_flint_refuted`, `C08_answers_flint_refuted` | `arb_add_si` rounds the midpoint 2c+1 to the precision and `mag_one` overwrites the error bound that accounts for it (set_embeddings_fmpz_poly.c:54-55): the first field of (2^67 x - 2^67 - 16)^2 - 2 at 64 bits has an enclosure without a root; so has the only field of (16x-19)^3 + (16x-19) - 1 at 4 bits. In the former field the program that computes the generator x minus q = 1 + 7*2^-66 gets sign -1, floor -1 and ceiling 0 for a number between 0 and 1, and x is compared as smaller than q: the answers of C23 to C26 are wrong in it, without any further failure |
| C10 | `C10_sturm_refuted` | the Sturm count of x^2-2 on (0,1) is 1; every member of the sequence after the first that vanishes at 0 is counted once too often (`C10_exact_partial`), members vanishing at 1 are counted right |
| C14 | `C14_condition_refuted` | a negative leading coefficient is rounded towards zero |
| C16 | `C16_bisection_refuted`, `C16_bisection_flint_refuted` | the bisection rounds the ball outwards, sees another root and keeps that one |
| C17 | `C17_check_refuted`, `C17_check_flint_refuted` | the check accepts a ball without a root, as it only looks at the rounded ball |
| C18 | `C18_refine_refuted`, `C18_refine_flint_refuted` | `renf_init` on a ball isolating 0.312.. of 41x^2-16x+1 gives the field of 0.078.. |
| C19 | `C19_equal_refuted`, `C19_equal_flint_refuted` | fields of 2^66-sqrt 2 and 2^66+sqrt 2 compare equal |
| C20 | `C20_generator_refuted`, `C20_generator_zero_refuted`; for every arithmetic `C20_inverse_refuted` | in degree one the generator of c1 x + c0 is -c1/c0, not -c0/c1, and divides by zero for c0 = 0 |
| C21, C23-C29 | `C21_enclosure_refuted`, `C23_sign_refuted`, `C24_compare_refuted`, ... | in the field of 2^40(10y^2-7y)-1 with y = x-2^66 a ball isolating y = 0.7 is accepted at the default precision; refinement on behalf of sign, comparison, floor, ... moves to the other root and the answers are wrong |
| C22 | `C22_arithmetic_refuted`; for every arithmetic `C22_product_refuted` | `renf_elem_fmpq_div(a, b, c)` computes b*c unless a and c are the same object |
| C23-C29 | `C23_to_C29_undefined_refuted`, `C23_to_C29_flint_refuted` | with the generator 2^(-599/3), after adding and subtracting 1, all of these call `arb` with a precision below 2 (negative condition number added to the precision) |
| C29 | `C29_rational_refuted`, `C29_exact_refuted` | the field of the polynomial x is made from the ball 0 +/- 1; a ball for 1/3 of more accuracy than the field has bits refines the field, where `2 * FLINT_ABS(arb_rel_accuracy_bits(nf->emb))` overflows; when the generator 0 is enclosed exactly, `arb_rel_accuracy_bits` is `ARF_PREC_EXACT` and get_arb.c:34-37 asks for 1/3 with that many bits |
| C26, C27 | `C26_zero_refuted` | in degree three or more the floor and ceiling of zero, and zero divided by a rational number, read the first coefficient of an empty polynomial (rounding_template.h:56): the answer is whatever an earlier value of the element left there; sign and comparisons look for zero first. In the model this is undefined behaviour |
| C30 | `C30_subnormal_refuted`, `C30_subnormal_every_refuted` | rationals are rounded to 53 bits and then to a double: (3*2^60-1)/2^1135 converts to 2*2^-1074, the nearest double is 2^-1074 |
| C30 | `C30_overflow_refuted`, `C30_monotone_refuted`, `C30_overflow_flint_refuted` | an irrational number between DBL_MAX and DBL_MAX+1 converts to infinity also when rounding down or to nearest, while the rational DBL_MAX+1 converts to DBL_MAX |
| C30, C41 | `C41_hash_refuted`, `C41_hash_flint_refuted` | the hash of the generator 2^(-599/3) is undefined after adding and subtracting 1 (as C31) |
| C31 | `C31_history_refuted`, `C31_history_flint_refuted` | hence the sign of one element is 1 or undefined depending on the history |
| C32 | `C32_previous_refuted` | `fmpz_poly_set_str_pretty` only writes the coefficients it read: parsing "x" into 5x^3 gives 5x^3+x |
| C32 | `C32_malformed_refuted`, `C32_white_space_refuted`, `C32_undefined_refuted` | "*x" and "" are accepted, tabs and "1 / 2" rejected, `isdigit` is called on negative characters |
| C33 | `C33_parentheses_refuted`, `C33_name_refuted` | the default output "(x ~ 1.41)" is rejected by the string constructor; a field made with a generator name that is not an identifier reads no string at all |
| C34 | `C34_sequence_refuted`, `C34_blank_refuted`, `C34_empty_refuted` | `operator>>` does not skip white space: of "1 2" the second element is 0, as is the first of an empty stream |
| C35 | `C35_leak_refuted` (and Example `C35_string`) | constructors that throw lose the memory of the new element (conversion to another field) or the copy of the string |
| C36 | `C36_refuted`, `C36_flint_refuted` | as C19: making the fields of 2^66-sqrt 2 and 2^66+sqrt 2 gives one object, for the first root |
| C37 | `C37_refuted`, `C37_dangling_refuted`, `C37_relock_refuted` | between the decrement of the counter to 3 and the lock, another thread can make the same field and get the dying object: it is then destroyed under that thread, destroyed twice, or its cached elements lock the mutex that the thread holds already |
| C38 | `C38_copy_refuted` | copying an element that has been moved from follows a null pointer |
| C40, C69 | `C40_order_refuted`, `C69_relation_refuted` | as C24, through `operator<` and `operator>` |
| C40, C43, C69 | `C40_C43_C69_flint_refuted` | as C23-C29, through the C++ interface: x + 1 - 1 with the generator x = 2^(-599/3); the relations with a rational on either side, with an element, and floor division are undefined |
| C21 | `C21_flint_refuted` | in the first field of C08, asking x - q for its sign stores an enclosure without it |
| C42 | `C42_refuted`, `C42_undefined` | pow(INT_MIN) negates INT_MIN, for every nonzero element |
| C43 | `C43_refuted`, `C43_undefined_refuted`; for every arithmetic `C43_silent_refuted`, `C43_mixed_refuted` | floor division of irrational elements of different fields does not throw: sqrt 2 by sqrt 6 gives 1, sqrt 2 by 2^(1/3) reads the wrong member of the representation |
| C49 | `C49_no_overflow_refuted`, `C49_flint_refuted` | a ball centred at 0 makes `2 * FLINT_ABS(..)` overflow |
| C50 | `C50_embeddings_refuted`, `C50_embeddings_flint_refuted` | two isolating intervals of x^3-2(2^60x-1)^2 share the endpoint 2^-60, where the value is 2^-180; the uniqueness check evaluates there at 2*prec = 128 bits, cannot tell the sign, rejects both correct balls and `renf_init` aborts; at precision 128 both balls are accepted |
| C50 | `C50_endless_refuted` | the smaller root of 6291455x^2-11264x+4 is isolated by (0, 2^-10); the derivative vanishes there, the value at the midpoint 2^-11 is 2^-22 and is not told from zero with the 17 bits used (2 per bit of accuracy plus 5 per coefficient, whatever the precision asked for), and the bisection returns the interval unchanged: `renf_set_embeddings_fmpz_poly` never returns, at 64 bits and at every sufficiently large precision |
| C47 | `C47_stale_refuted` | an archive tells fields apart by their address only and does not keep them alive: an element of a field made where a destroyed one was is loaded into the old field, 3^(1/3) as 2^(1/3) |
| C47 | `C47_digits_refuted` | the enclosure is written with as many decimal digits as its midpoint has bits: 0.125 +/- 10^-21 is written with one digit, the text contains two roots and loading throws; this holds for all printers and readers within the contract |
| C48 | `C48_root_refuted`, `C48_flint_refuted` | "1.5 +/- 0.00000000000000000001" isolates no root of 5*10^19 x^2 - 112500000000000000003, the field is made nevertheless (as C17) |
| C48 | `C48_callback_refuted` | with a callback that does not throw and x^2+1, the precision doubles until it overflows |
| C51 | `C51_temporaries_refuted` | the callback throws (in the second round) while the polynomial and the ball are initialized: both leak whenever the root is not unique |
| C54 | `C54_refine_ends_refuted` | for x^2-2 and the ball 1.41421509 +/- 2.24996948 the derivative may vanish, so Newton fails; the value at the midpoint is not told from zero with the 16 bits used, the bisection keeps the interval and still returns 1, so the precision is computed anew from the same ball instead of being doubled: the loop repeats forever |
| C55 | `C55_ends_refuted` | the same at the default precision of 64 bits: the field of (2^65 x - 2^65 - 1)^2 - 2 is made from a ball of radius 2^-64.1 whose centre is within 2^-526 of the root and is not refined then; the sign of x - 1 - 2^-65 asks for 128 bits, refinement computes with 527 bits, does not see the sign at the centre and keeps the ball for ever |
| C56 | `C56_programs_refuted`, `C56_programs_flint_refuted` | as C23-C29: the sign of the generator 2^(-599/3) after adding and subtracting 1 is undefined |
| C67 | `C67_endless_refuted` | as C54: a callback whose first text is "1.414215087890625 +/- 2.24996948" is not called again for x^2-2, whatever it would return for more bits |
| C58 | `C58_negative_refuted` | negative numbers are refused (init_nth_root.c:25) although odd roots of them exist: the field of the real cube root of -2 cannot be made, the call aborts |
| C60 | `C60_random_refuted` | for the polynomial x, irreducible modulo every prime, the root 0 (as any dyadic root of a linear polynomial) is found exactly, there is no interval to choose from and the call aborts |
| C63 | `C63_interval_refuted` | pyeantic converts realalg intervals through doubles: of the interval [10^18+60, 10^18+61] 10^-15 no point is in the ball written; witness with correctly rounded operations |
| C64 | `C64_field_refuted` | the regular expression for the leading coefficient expects nothing or digits: the fields of -x^2+2, 1/2*x^2-1 and x are made but cannot be converted to SageMath, for all instances of the contract |
| C65 | `C65_zero_refuted` | with FLINT before version 3, renf_elem_class.cpp:545 evaluates `&coefficients[0]` for the empty vector that pyeantic passes for zero, which is undefined |
| C70 | `C70_unique_refuted`, `C70_string_refuted` | check_unique_real_root.c loses l and r whenever the derivative may vanish on the ball, also when the ball is accepted, and b, l, r at the `return 0` of line 89; the constructor of an element from a string loses its copy `t` when it throws |
| C71 | `C71_shared_refuted`, `C71_ndebug_refuted` | sign, comparisons, floor and the like evaluate the element in place (`a->emb` holds 408 sqrt 2 before 577 is subtracted), so two threads that only read one element of an immutable field can get a wrong sign; with NDEBUG the mark set by renf_set_immutable is ignored and the field is refined |
| C72 | `C72_foreign_refuted`, `C72_higher_refuted`, `C72_zero_refuted` | the constructor of an element of a RealEmbeddedNumberField takes every C++ element as it is: -sqrt 2, the generator of its own field, given to the field of sqrt 2 prints as -1.41 and converts to sqrt 2; the 3 of a cubic field given to a quadratic one converts to nothing (three coefficients); division by zero aborts SageMath |
| C73 | `C73_dangling_refuted`, `C73_reused_refuted`, `C73_unset_refuted` | set_pword stores a pointer that is not counted: reading after the last handle and element are gone increments the counter of a destroyed field, or, if another field was made in the same memory, silently gives elements of that one; without set_pword operator>> dereferences null |
| C61 | `C61_equal_refuted` | as C18: a field and its copy compare unequal after the source is refined |
| C74 | `C74_print_refuted`, `C74_undefined_flint_refuted` | as C18: the element 0.35 is printed as -0.35; and as C41: printing 2^(-599/3) after an addition and a subtraction is undefined |
| C75 | `C75_zero_refuted`, `C75_coefficients_refuted` | `a / 0` in Python ends the process instead of raising an exception, and so does, with assertions, `renf_elem(K, v)` for a list with more entries than the degree |
| C76 | `C76_equal_refuted` | renf.h says that fields are equal if they are the same subfield of the real numbers; those of sqrt 2 and -sqrt 2 are and compare unequal |
| C77 | `C77_destruction_refuted` | `intrusive_ptr_release` decrements with `memory_order_release` and there is no acquire before `delete` (boost's documentation asks for one): what another thread did with the field before dropping its handle, for example refining it, does not happen before the destruction. `C77_acquire` proves that `memory_order_acq_rel` would do |
| C79 | `C79_blanks_refuted`, `C79_last_blank_refuted`, `C79_end_refuted`, `C79_failed_refuted` | `operator>>` between parentheses drops all white space: "(1 2)" is 12 while the constructor rejects "1 2"; it reads over a parenthesis that follows a blank, so "(1 )" throws; for "(1 " at the end of the stream it appends a character that was never set; a stream with its fail bit set gives 0 without an error |
| C80 | `C80_lost_bits_refuted` | the documented number of bits lost when evaluating an element is the logarithm of the sum of the absolute values of the terms and not compared with the value: for x - 2^k with x the square root of 4^k + 2 it is about k while at least 2k bits are lost. Besides, the `int` returned is not that number, and it is 1 both for a rational element, where the number is set to 0, and when the number is too large and not set; no caller looks at it |
| C81 | `C81_refined_refuted` | `renf_elem_set_nf_elem` is documented to refine the element to precision `prec`, but only evaluates it at the enclosure that the field has; `prec` is the working precision of this evaluation, and the field, which is passed without `const`, is not refined |
| C86 | `C86_newton_refuted`, `C86_newton_never` | `fmpz_poly_newton_step_arb` with the ball as result first evaluates the derivative in it, which sets it to 0 and then takes squares: for x^2-4x+2 it returns 0 and leaves the ball 0 instead of one around 0.586; at the end it compares the ball with itself, so it never returns 1. Unlike the functions of evaluate.c it makes no copy, and the header does not forbid this use. `renf_refine_embedding` passes a new object, so the library itself is not affected; bisection is right in place |
| C77 | `C77_search_refuted` | two threads that exchange nothing: `make` in one compares the new field with the registered one while the other refines that; the advice of refine_embedding.c to use a distinct copy in each thread cannot be followed in C++, where equal fields are one object |
| C95 | `C95_exact_refuted`, `C95_least_refuted` | `renf_elem_get_arb` with the precision `ARF_PREC_EXACT` computes -prec-2, which is not a word; with `WORD_MIN` it computes -prec |

## Assumptions of each theorem

What `Print Assumptions` lists, for the names in MANIFEST.json; the axioms are those named
under "Trusted base", without their modules.

* Closed under the global context (124): C10_zero, C11_scale_unit_constant, C20_generator_zero_refuted, C26_size, C32_characters, C32_malformed_refuted, C32_previous_refuted, C32_undefined_refuted, C32_white_space_refuted, C33_name_refuted, C33_parentheses_refuted, C34_blank_refuted, C34_empty_refuted, C34_sequence_refuted, C35_end, C35_leak_refuted, C35_lifetime, C35_no_leak_partial, C35_safe, C36_make_partial, C36_unique_partial, C37_dangling_refuted, C37_end_partial, C37_held_partial, C37_progress_partial, C37_refuted, C37_relock_refuted, C37_safe_partial, C37_unique_partial, C38_copy_refuted, C38_effect_partial, C38_once, C39_strict_same, C39_strict_throws, C44_content, C46_call, C46_history, C47_bits, C47_stale_refuted, C48_throws_partial, C49_no_overflow_partial, C51_temporaries_partial, C53_element_text, C53_field_text, C53_string, C53_unset, C60_random_refuted, C61_same_results, C62_raises, C64_text, C65_length, C70_string_answer, C70_string_partial, C70_string_refuted, C70_tidy_partial, C70_unique_answer, C70_unique_partial, C70_unique_refuted, C71_ndebug_refuted, C73_dangling_refuted, C73_lifetime_partial, C73_read_partial, C73_reused_refuted, C73_safe_partial, C73_set, C73_set_of, C73_unset_refuted, C75_coefficients_refuted, C75_gmp_digit, C75_refused, C77_destruction_refuted, C77_search_refuted, C79_answers_partial, C79_blanks_refuted, C79_end_refuted, C79_failed_refuted, C79_last_blank_refuted, C79_open_partial, C79_text_partial, C84_objects, C85_abs, C86_bisection, C86_bisection_value, C86_newton_value, C87_append, C87_arrays, C87_zero, C88_count, C88_zero, C89_bound, C89_descartes, C89_marks, C89_scale, C90_unit, C90_words, C90_zero, C91_cond, C91_evaluate, C91_has, C92_read, C92_term, C93_inside, C93_negative, C93_short, C94_again, C94_defined, C94_element, C94_field, C94_kept, C94_released, C94_representation, C95_abort_partial, C95_ball_partial, C95_compare_partial, C95_double_only_partial, C95_double_unbounded_partial, C95_exact_refuted, C95_infinite_partial, C95_least_refuted, C95_only_partial, C95_rational_partial, C95_round_partial, C95_sign_partial, C95_unbounded_partial.
* `sig_forall_dec` (1): C66_vector_long.
* `classic` (4): C77_acquire, C77_construction_partial, C77_destruction_partial, C77_registry.
* `functional_extensionality_dep` (2): C71_alone, C71_threads_partial.
* `sig_forall_dec`, `functional_extensionality_dep` (153): C05_factor_two_partial, C05_factor_zeros_partial, C05_no_positive_root_partial, C05_root_bound_partial, C06_missed_partial, C07_upper_bound_few_partial, C07_upper_bound_partial, C07_within_partial, C08_all_roots_refuted, C08_root_flint_refuted, C08_root_refuted, C10_sequence, C10_sturm_refuted, C11_scale_unit, C12_squarefree, C13_evaluate, C13_evaluate_rational, C14_condition_factor_partial, C14_condition_partial, C14_condition_refuted, C14_condition_tight, C15_newton_shrinks, C17_check_flint_refuted, C17_check_linear_partial, C17_check_refuted, C18_margin_exists_partial, C18_single_root_partial, C19_equal_partial, C19_equal_same, C20_generator_partial, C20_generator_refuted, C20_inverse_refuted, C22_arithmetic_partial, C22_product_refuted, C29_exact_refuted, C29_rational_refuted, C30_subnormal_every_refuted, C32_accepted_partial, C32_parse, C32_parse_integer_partial, C32_rejected_partial, C33_constructor_partial, C33_stream_partial, C34_adjacent_partial, C34_skipping_partial, C39_exact, C39_int, C39_mpq, C39_mpz, C39_reachable, C39_throws, C40_equal, C40_equal_int, C40_equal_mpq, C40_equal_mpz, C40_equal_throws, C40_order_throws, C40_order_throws_only, C42_partial, C42_undefined, C43_mixed_refuted, C43_silent_refuted, C44_den, C44_irrational, C44_mpq, C44_mpz, C44_not_integer, C44_num, C44_num_den, C45_equal, C45_equal_q, C45_is_integer, C45_is_one, C45_is_rational, C45_is_zero, C48_callback_refuted, C48_flint_refuted, C48_root_refuted, C49_defined_partial, C50_embeddings_flint_refuted, C50_embeddings_refuted, C51_temporaries_refuted, C52_add_fmpq, C57_accepts, C57_rejects, C59_irreducible, C60_interval, C62_element, C62_polynomial, C63_doubles, C63_interval_partial, C63_interval_refuted, C64_field_partial, C64_field_refuted, C64_unread, C65_back_partial, C65_integer, C65_pickle_partial, C65_rational, C65_vector, C65_zero_refuted, C66_assign_int, C66_assign_rational, C66_convert, C66_int, C66_negative, C66_rational, C66_vector, C68_back_partial, C69_bool, C69_elements, C69_left, C69_plus, C69_right, C69_throws, C71_right_partial, C72_arithmetic_partial, C72_neg_partial, C72_value_partial, C72_zero_refuted, C74_ball, C74_digits, C75_coefficients_partial, C75_convert, C75_copy, C75_element_partial, C75_elements, C75_nothing, C75_operator, C75_rational_partial, C75_realalg, C75_realalg_rest, C75_reflected, C75_text, C75_zero_refuted, C76_degree, C76_equal_partial, C76_every, C76_only, C78_arb, C78_arb_rational, C78_arf, C78_arf_exact, C78_arf_rational, C79_form_partial, C80_lost_bits_absolute_partial, C80_lost_bits_large_partial, C81_explicit_partial, C81_refined_partial, C85_bound, C86_newton_never, C89_upper, C91_sturm.
* `sig_forall_dec`, `sig_not_dec`, `functional_extensionality_dep` (74): C01_descartes_unit, C02_isolation_unit, C05_root_bound_refuted, C06_count_partial, C06_count_within_partial, C06_isolation_few_partial, C06_isolation_partial, C06_isolation_refuted, C06_within_partial, C07_upper_bound_refuted, C08_answers_flint_refuted, C08_embeddings_partial, C08_slots, C08_within_partial, C09_has_real_root, C16_bisection_flint_refuted, C16_bisection_partial, C16_bisection_refuted, C18_refine_flint_refuted, C18_refine_refuted, C19_equal_flint_refuted, C19_equal_refuted, C21_enclosure_refuted, C21_flint_refuted, C22_arithmetic_refuted, C23_sign_refuted, C23_to_C29_flint_refuted, C23_to_C29_undefined_refuted, C24_compare_refuted, C25_compare_q_refuted, C26_ceil_refuted, C26_floor_refuted, C26_zero_refuted, C27_floor_div_refuted, C28_cfrac_refuted, C29_ball_refuted, C30_monotone_refuted, C30_overflow_refuted, C30_subnormal_refuted, C31_history_flint_refuted, C31_history_refuted, C36_flint_refuted, C36_refuted, C40_C43_C69_flint_refuted, C40_order_refuted, C41_hash_flint_refuted, C41_hash_refuted, C42_refuted, C43_refuted, C43_undefined_refuted, C49_flint_refuted, C49_no_overflow_refuted, C54_refine_ends_refuted, C55_ends_refuted, C56_programs_flint_refuted, C56_programs_refuted, C58_negative_refuted, C60_random_partial, C61_equal_refuted, C67_endless_refuted, C69_relation_refuted, C71_shared_refuted, C72_foreign_refuted, C72_higher_refuted, C74_print_refuted, C74_undefined_flint_refuted, C76_equal_refuted, C80_lost_bits_refuted, C81_refined_refuted, C86_bisection_root, C86_newton_refuted, C88_embeddings, C88_length, C88_short.
* `sig_forall_dec`, `sig_not_dec`, `classic`, `functional_extensionality_dep` (95): C03_isolation_unit_terminates, C04_count_unit, C06_count_ends, C06_isolation_terminates, C10_exact_partial, C10_sturm_partial, C15_newton_keeps, C17_accepts_partial, C17_check_partial, C17_check_rounded_partial, C17_margin_partial, C18_margin_partial, C18_refine_partial, C18_small_partial, C21_enclosure_partial, C23_sign_partial, C23_total_partial, C24_compare_partial, C24_total_partial, C25_compare_q_partial, C25_total_partial, C26_ceil_partial, C26_floor_partial, C26_total_partial, C27_floor_div_partial, C27_total_partial, C28_cfrac_partial, C28_total_partial, C29_ball_partial, C29_total_partial, C30_monotone_partial, C30_overflow_flint_refuted, C30_round_partial, C30_total_partial, C31_ceil_partial, C31_cfrac_partial, C31_compare_partial, C31_compare_q_partial, C31_floor_div_partial, C31_floor_partial, C31_get_d_partial, C31_sign_partial, C36_contract_partial, C40_int_partial, C40_mpq_partial, C40_mpz_partial, C40_order_partial, C40_reachable_partial, C40_sign_partial, C41_hash_partial, C43_ceil_partial, C43_floor_partial, C43_partial, C47_archive_partial, C47_digits_refuted, C47_field_partial, C47_into_partial, C48_ends_partial, C48_makes_partial, C48_returns_partial, C50_endless_refuted, C50_isolation_partial, C50_small_partial, C54_margin_partial, C54_refine_ends_partial, C55_get_d_partial, C55_history_if_partial, C55_history_partial, C55_margin_partial, C56_programs_partial, C58_odd_partial, C58_sharp_partial, C61_equal_partial, C61_programs_partial, C67_callback_partial, C67_two_roots, C68_sage_partial, C69_relation_partial, C72_order_partial, C74_double_partial, C74_put_partial, C74_total_partial, C82_doubles, C82_programs, C83_rationals, C84_programs, C86_newton_partial, C87_isolate, C87_null, C88_random, C90_isolate, C93_values, C95_double_partial, C95_hash_partial, C95_right_partial.
