{
 "claims": [
  {
   "property": "C01",
   "status": "proved",
   "theorems": [
    "C01_descartes_unit"
   ],
   "note": ""
  },
  {
   "property": "C02",
   "status": "proved",
   "theorems": [
    "C02_isolation_unit"
   ],
   "note": "nonzero polynomials; the zero polynomial makes the code read out of bounds (VUndef in the model)"
  },
  {
   "property": "C03",
   "status": "proved",
   "theorems": [
    "C03_isolation_unit_terminates"
   ],
   "note": ""
  },
  {
   "property": "C04",
   "status": "proved",
   "theorems": [
    "C04_count_unit"
   ],
   "note": ""
  },
  {
   "property": "C05",
   "status": "partial",
   "theorems": [
    "C05_root_bound_refuted",
    "C05_no_positive_root_partial",
    "C05_root_bound_partial",
    "C05_factor_two_partial",
    "C05_factor_zeros_partial"
   ],
   "note": "false as stated: witness x^4-x^3-x^2-2x-2; proved for nonzero coefficients with at most three of the sign opposite to the leading one; every positive root is below twice the bound (5/2 times with zero coefficients)"
  },
  {
   "property": "C06",
   "status": "partial",
   "theorems": [
    "C06_isolation_refuted",
    "C06_isolation_partial",
    "C06_isolation_few_partial",
    "C06_within_partial",
    "C06_missed_partial",
    "C06_isolation_terminates",
    "C06_count_partial",
    "C06_count_within_partial",
    "C06_count_ends"
   ],
   "note": "false as stated because of C05; for every polynomial the roots between the computed bounds are isolated and counted; a missed root is less than 5/2 times as far as the bound; in full whenever the computed root bounds are strict"
  },
  {
   "property": "C07",
   "status": "partial",
   "theorems": [
    "C07_upper_bound_refuted",
    "C07_upper_bound_partial",
    "C07_within_partial",
    "C07_upper_bound_few_partial"
   ],
   "note": "false as stated because of C05; for every polynomial an upper bound for the roots between the computed bounds"
  },
  {
   "property": "C08",
   "status": "partial",
   "theorems": [
    "C08_slots",
    "C08_root_refuted",
    "C08_root_flint_refuted",
    "C08_answers_flint_refuted",
    "C08_all_roots_refuted",
    "C08_embeddings_partial",
    "C08_within_partial"
   ],
   "note": "slot count in full; the second half is false: the rounding error of the interval midpoint is overwritten, and fields are created whose enclosure holds no root, with every ball arithmetic that rounds like FLINT, and give wrong signs, comparisons, floors and ceilings; when the interval midpoints fit in the precision the fields are those of the roots in increasing order, for calls that return (see C50): all roots when the root bounds are strict, those between the bounds for every polynomial without dyadic roots"
  },
  {
   "property": "C09",
   "status": "proved",
   "theorems": [
    "C09_has_real_root"
   ],
   "note": "relative to the contract of FLINT fmpz_poly_num_real_roots at p"
  },
  {
   "property": "C10",
   "status": "partial",
   "theorems": [
    "C10_sturm_refuted",
    "C10_exact_partial",
    "C10_sturm_partial",
    "C10_sequence",
    "C10_zero"
   ],
   "note": "false as stated: x^2-2 gives 1; proved: the result is the number of roots in [0,1] plus the number of members of the Sturm sequence after the first that vanish at 0, for every polynomial with simple roots there; so it is right exactly when none vanishes"
  },
  {
   "property": "C11",
   "status": "proved",
   "theorems": [
    "C11_scale_unit",
    "C11_scale_unit_constant"
   ],
   "note": ""
  },
  {
   "property": "C12",
   "status": "proved",
   "theorems": [
    "C12_squarefree"
   ],
   "note": "relative to the contracts of FLINT fmpz_poly_gcd and fmpz_poly_div"
  },
  {
   "property": "C13",
   "status": "proved",
   "theorems": [
    "C13_evaluate",
    "C13_evaluate_rational"
   ],
   "note": "relative to the enclosure contract of FLINT ball operations, precision at least 2"
  },
  {
   "property": "C14",
   "status": "partial",
   "theorems": [
    "C14_condition_refuted",
    "C14_condition_partial",
    "C14_condition_factor_partial",
    "C14_condition_tight"
   ],
   "note": "false as stated: a negative leading coefficient is rounded down; right up to a factor two, and never too large by more than the rounding of the sum to a power of two and the rounding errors"
  },
  {
   "property": "C15",
   "status": "proved",
   "theorems": [
    "C15_newton_keeps",
    "C15_newton_shrinks"
   ],
   "note": ""
  },
  {
   "property": "C16",
   "status": "partial",
   "theorems": [
    "C16_bisection_refuted",
    "C16_bisection_flint_refuted",
    "C16_bisection_partial"
   ],
   "note": "false as stated: 41x^2-16x+1 at precision 12; proved when the outward rounded interval isolates the root; it fails with every ball arithmetic that rounds like FLINT"
  },
  {
   "property": "C17",
   "status": "partial",
   "theorems": [
    "C17_check_refuted",
    "C17_check_flint_refuted",
    "C17_check_partial",
    "C17_check_rounded_partial",
    "C17_check_linear_partial",
    "C17_accepts_partial",
    "C17_margin_partial"
   ],
   "note": "false as stated at precision 64: a ball of radius 2^-70 beside sqrt 2 is accepted; conversely, isolating balls of irreducible polynomials are accepted at sufficient precision; it fails with every ball arithmetic that rounds like FLINT; fields are made at an explicit precision from balls below an explicit radius with every arithmetic that rounds like FLINT (arb_fl, arb_fine)"
  },
  {
   "property": "C18",
   "status": "partial",
   "theorems": [
    "C18_refine_refuted",
    "C18_refine_flint_refuted",
    "C18_refine_partial",
    "C18_single_root_partial",
    "C18_small_partial",
    "C18_margin_partial",
    "C18_margin_exists_partial"
   ],
   "note": "false as stated: renf_init moves from one root of 41x^2-16x+1 to the other; proved for polynomials with one real root and for enclosures below a radius that exists for every field; it fails with every ball arithmetic that rounds like FLINT; the radius is given explicitly for every arithmetic that rounds like FLINT (arb_fl, arb_fine)"
  },
  {
   "property": "C19",
   "status": "partial",
   "theorems": [
    "C19_equal_refuted",
    "C19_equal_flint_refuted",
    "C19_equal_same",
    "C19_equal_partial"
   ],
   "note": "false as stated: touching balls of different roots compare equal; it fails with every ball arithmetic that rounds like FLINT"
  },
  {
   "property": "C20",
   "status": "partial",
   "theorems": [
    "C20_generator_refuted",
    "C20_generator_zero_refuted",
    "C20_inverse_refuted",
    "C20_generator_partial"
   ],
   "note": "false in degree one, where the inverse of the root is returned (C20_inverse_refuted, for every arithmetic); proved in degree at least two"
  },
  {
   "property": "C21",
   "status": "partial",
   "theorems": [
    "C21_enclosure_refuted",
    "C21_flint_refuted",
    "C21_enclosure_partial"
   ],
   "note": "false as stated: refinement can leave the root (dyops, not FLINT itself), fields without a root are made (C08) and used (C21_flint_refuted, every arithmetic that rounds like FLINT), and calls at a precision below 2 for tiny generators; proved for calls that return, in fields whose refinement cannot leave the root (all fields of polynomials with one real root, and by C18_small_partial all fields with a small enough enclosure); they return by C55"
  },
  {
   "property": "C22",
   "status": "partial",
   "theorems": [
    "C22_arithmetic_refuted",
    "C22_product_refuted",
    "C22_arithmetic_partial"
   ],
   "note": "false for rational / element stored elsewhere, where the product is computed (C22_product_refuted, for every arithmetic); proved for all other arithmetic functions whatever the enclosures"
  },
  {
   "property": "C23",
   "status": "partial",
   "theorems": [
    "C23_sign_refuted",
    "C23_to_C29_undefined_refuted",
    "C23_to_C29_flint_refuted",
    "C23_sign_partial",
    "C23_total_partial"
   ],
   "note": "false as stated: refinement can leave the root (dyops, not FLINT itself), and calls at a precision below 2 for tiny generators (with every ball arithmetic that rounds like FLINT); proved for calls that return, in fields whose refinement cannot leave the root (all fields of polynomials with one real root, and by C18_small_partial all fields with a small enough enclosure); they return by C55; the _total theorem says that in fields of degree at least two with an enclosure below a radius that exists for every field, and a generator that is not tiny, the call returns the right answer unless twice the accuracy of an enclosure met on the way overflows a word"
  },
  {
   "property": "C24",
   "status": "partial",
   "theorems": [
    "C24_compare_refuted",
    "C23_to_C29_undefined_refuted",
    "C23_to_C29_flint_refuted",
    "C24_compare_partial",
    "C24_total_partial"
   ],
   "note": "false as stated: refinement can leave the root (dyops, not FLINT itself), and calls at a precision below 2 for tiny generators (with every ball arithmetic that rounds like FLINT); proved for calls that return, in fields whose refinement cannot leave the root (all fields of polynomials with one real root, and by C18_small_partial all fields with a small enough enclosure); they return by C55; the _total theorem says that in fields of degree at least two with an enclosure below a radius that exists for every field, and a generator that is not tiny, the call returns the right answer unless twice the accuracy of an enclosure met on the way overflows a word"
  },
  {
   "property": "C25",
   "status": "partial",
   "theorems": [
    "C25_compare_q_refuted",
    "C23_to_C29_undefined_refuted",
    "C23_to_C29_flint_refuted",
    "C25_compare_q_partial",
    "C25_total_partial"
   ],
   "note": "false as stated: refinement can leave the root (dyops, not FLINT itself), and calls at a precision below 2 for tiny generators (with every ball arithmetic that rounds like FLINT); proved for calls that return, in fields whose refinement cannot leave the root (all fields of polynomials with one real root, and by C18_small_partial all fields with a small enough enclosure); they return by C55; the _total theorem says that in fields of degree at least two with an enclosure below a radius that exists for every field, and a generator that is not tiny, the call returns the right answer unless twice the accuracy of an enclosure met on the way overflows a word"
  },
  {
   "property": "C26",
   "status": "partial",
   "theorems": [
    "C26_floor_refuted",
    "C26_ceil_refuted",
    "C26_zero_refuted",
    "C23_to_C29_undefined_refuted",
    "C23_to_C29_flint_refuted",
    "C26_floor_partial",
    "C26_ceil_partial",
    "C26_total_partial",
    "C26_size"
   ],
   "note": "false as stated: refinement can leave the root (dyops, not FLINT itself), and calls at a precision below 2 for tiny generators (with every ball arithmetic that rounds like FLINT); proved for calls that return, in fields whose refinement cannot leave the root (all fields of polynomials with one real root, and by C18_small_partial all fields with a small enough enclosure); they return by C55; the _total theorem says that in fields of degree at least two with an enclosure below a radius that exists for every field, and a generator that is not tiny, the call returns the right answer unless twice the accuracy of an enclosure met on the way overflows a word; the floor and ceiling of 0 in degree three or more read a coefficient that is not there"
  },
  {
   "property": "C27",
   "status": "partial",
   "theorems": [
    "C27_floor_div_refuted",
    "C26_zero_refuted",
    "C23_to_C29_undefined_refuted",
    "C23_to_C29_flint_refuted",
    "C27_floor_div_partial",
    "C27_total_partial"
   ],
   "note": "false as stated: refinement can leave the root (dyops, not FLINT itself), and calls at a precision below 2 for tiny generators (with every ball arithmetic that rounds like FLINT); proved for calls that return, in fields whose refinement cannot leave the root (all fields of polynomials with one real root, and by C18_small_partial all fields with a small enough enclosure); they return by C55; the _total theorem says that in fields of degree at least two with an enclosure below a radius that exists for every field, and a generator that is not tiny, the call returns the right answer unless twice the accuracy of an enclosure met on the way overflows a word; without zero dividends in degree three or more (C26_zero_refuted)"
  },
  {
   "property": "C28",
   "status": "partial",
   "theorems": [
    "C28_cfrac_refuted",
    "C23_to_C29_undefined_refuted",
    "C23_to_C29_flint_refuted",
    "C28_cfrac_partial",
    "C28_total_partial"
   ],
   "note": "false as stated: refinement can leave the root (dyops, not FLINT itself), and calls at a precision below 2 for tiny generators (with every ball arithmetic that rounds like FLINT); proved for calls that return, in fields whose refinement cannot leave the root (all fields of polynomials with one real root, and by C18_small_partial all fields with a small enough enclosure); they return by C55; the _total theorem says that in fields of degree at least two with an enclosure below a radius that exists for every field, and a generator that is not tiny, the call returns the right answer unless twice the accuracy of an enclosure met on the way overflows a word"
  },
  {
   "property": "C29",
   "status": "partial",
   "theorems": [
    "C29_ball_refuted",
    "C23_to_C29_undefined_refuted",
    "C23_to_C29_flint_refuted",
    "C29_rational_refuted",
    "C29_exact_refuted",
    "C29_ball_partial",
    "C29_total_partial"
   ],
   "note": "false as stated: refinement can leave the root (dyops, not FLINT itself), and calls at a precision below 2 for tiny generators (with every ball arithmetic that rounds like FLINT); in degree one with the generator 0 a ball for 1/3 is undefined, or computed with WORD_MAX bits (every correct ball arithmetic); proved for calls that return, in fields whose refinement cannot leave the root (all fields of polynomials with one real root, and by C18_small_partial all fields with a small enough enclosure); they return by C55; the _total theorem says that in fields of degree at least two with an enclosure below a radius that exists for every field, and a generator that is not tiny, the call returns the right answer unless twice the accuracy of an enclosure met on the way overflows a word"
  },
  {
   "property": "C30",
   "status": "partial",
   "theorems": [
    "C30_subnormal_refuted",
    "C30_overflow_refuted",
    "C30_monotone_refuted",
    "C41_hash_flint_refuted",
    "C30_subnormal_every_refuted",
    "C30_overflow_flint_refuted",
    "C30_round_partial",
    "C30_monotone_partial",
    "C30_total_partial"
   ],
   "note": "false: the conversion of a tiny generator is undefined after some histories with every ball arithmetic that rounds like FLINT, rational subnormals are rounded twice to nearest (with every arithmetic), irrational numbers beyond DBL_MAX become infinite in every mode, and so a larger number may give a smaller double (with every arithmetic meeting arb_fl and arb_fine); proved otherwise, relative to arf_get_d and arf_set_fmpq rounding correctly as documented; C30_total_partial says when the call returns"
  },
  {
   "property": "C31",
   "status": "partial",
   "theorems": [
    "C31_history_refuted",
    "C31_history_flint_refuted",
    "C31_sign_partial",
    "C31_compare_partial",
    "C31_compare_q_partial",
    "C31_floor_partial",
    "C31_ceil_partial",
    "C31_floor_div_partial",
    "C31_cfrac_partial",
    "C31_get_d_partial"
   ],
   "note": "false as stated: refinement can leave the root (dyops, not FLINT itself), and calls at a precision below 2 for tiny generators (with every ball arithmetic that rounds like FLINT); proved for calls that return, in fields whose refinement cannot leave the root (all fields of polynomials with one real root, and by C18_small_partial all fields with a small enough enclosure); they return by C55"
  },
  {
   "property": "C32",
   "status": "partial",
   "theorems": [
    "C32_parse",
    "C32_previous_refuted",
    "C32_malformed_refuted",
    "C32_white_space_refuted",
    "C32_undefined_refuted",
    "C32_accepted_partial",
    "C32_rejected_partial",
    "C32_parse_integer_partial",
    "C32_characters"
   ],
   "note": "every string of the documented form is parsed right; false: the integer version keeps old coefficients, \"*x\" and the empty string are accepted, tabs and blanks inside fractions are rejected, non-ASCII bytes are undefined behaviour; the accepted strings are characterised exactly"
  },
  {
   "property": "C33",
   "status": "partial",
   "theorems": [
    "C33_parentheses_refuted",
    "C33_name_refuted",
    "C33_constructor_partial",
    "C33_stream_partial"
   ],
   "note": "false: the constructor rejects the default output in parentheses, and every string when the generator name is not an identifier; proved for the output without parentheses, and for operator<< followed by operator>>; relative to the contract of antic printing"
  },
  {
   "property": "C34",
   "status": "partial",
   "theorems": [
    "C34_sequence_refuted",
    "C34_blank_refuted",
    "C34_empty_refuted",
    "C34_skipping_partial",
    "C34_adjacent_partial"
   ],
   "note": "false: white space is not skipped and read as 0; proved when the caller skips it"
  },
  {
   "property": "C35",
   "status": "partial",
   "theorems": [
    "C35_safe",
    "C35_lifetime",
    "C35_end",
    "C35_no_leak_partial",
    "C35_leak_refuted"
   ],
   "note": "no use after destruction, no double destruction and exact field lifetimes proved for all histories, relative to the registry contract; false: constructors that throw leak element memory; no leak without exceptions"
  },
  {
   "property": "C36",
   "status": "partial",
   "theorems": [
    "C36_refuted",
    "C36_flint_refuted",
    "C36_unique_partial",
    "C36_make_partial",
    "C36_contract_partial"
   ],
   "note": "false: roots whose enclosures overlap are identified, with every ball arithmetic rounding like FLINT (C36_flint_refuted); proved for all histories of fields with disjoint enclosures"
  },
  {
   "property": "C37",
   "status": "partial",
   "theorems": [
    "C37_refuted",
    "C37_dangling_refuted",
    "C37_relock_refuted",
    "C37_safe_partial",
    "C37_held_partial",
    "C37_unique_partial",
    "C37_end_partial",
    "C37_progress_partial"
   ],
   "note": "false: a field can be revived between decrement and lock; proved for every other execution of any number of threads, under sequential consistency"
  },
  {
   "property": "C38",
   "status": "partial",
   "theorems": [
    "C38_effect_partial",
    "C38_once",
    "C38_copy_refuted"
   ],
   "note": "false only for copying from an element that has been moved from; ownership and effect of every other operation proved for all histories"
  },
  {
   "property": "C39",
   "status": "proved",
   "theorems": [
    "C39_exact",
    "C39_throws",
    "C39_strict_throws",
    "C39_strict_same",
    "C39_int",
    "C39_mpz",
    "C39_mpq",
    "C39_reachable"
   ],
   "note": "for every world of canonical elements, which every program keeps; relative to the contract of antic arithmetic"
  },
  {
   "property": "C40",
   "status": "partial",
   "theorems": [
    "C40_order_refuted",
    "C40_C43_C69_flint_refuted",
    "C40_equal",
    "C40_equal_throws",
    "C40_equal_int",
    "C40_equal_mpz",
    "C40_equal_mpq",
    "C40_order_partial",
    "C40_int_partial",
    "C40_mpz_partial",
    "C40_mpq_partial",
    "C40_order_throws",
    "C40_order_throws_only",
    "C40_reachable_partial",
    "C40_sign_partial"
   ],
   "note": "== and != proved for all types; the order is false as refinement may leave the root (dyops) and is undefined for tiny generators (every arithmetic that rounds like FLINT), proved for answers when it cannot"
  },
  {
   "property": "C41",
   "status": "partial",
   "theorems": [
    "C41_hash_refuted",
    "C41_hash_flint_refuted",
    "C41_hash_partial"
   ],
   "note": "false: the conversion behind the hash of a tiny generator is undefined after some histories, with every ball arithmetic that rounds like FLINT; proved for hashes that are found, between any two fields and histories"
  },
  {
   "property": "C42",
   "status": "partial",
   "theorems": [
    "C42_refuted",
    "C42_undefined",
    "C42_partial"
   ],
   "note": "false only for INT_MIN, proved for every other exponent"
  },
  {
   "property": "C43",
   "status": "partial",
   "theorems": [
    "C43_refuted",
    "C43_undefined_refuted",
    "C43_silent_refuted",
    "C43_mixed_refuted",
    "C40_C43_C69_flint_refuted",
    "C43_partial",
    "C43_floor_partial",
    "C43_ceil_partial"
   ],
   "note": "false: irrational elements of different fields give a wrong number or undefined behaviour instead of an exception, with every arithmetic; otherwise proved for answers when refinement cannot leave the root"
  },
  {
   "property": "C44",
   "status": "proved",
   "theorems": [
    "C44_num_den",
    "C44_den",
    "C44_content",
    "C44_num",
    "C44_mpq",
    "C44_mpz",
    "C44_irrational",
    "C44_not_integer"
   ],
   "note": "all canonical elements of all three representations"
  },
  {
   "property": "C45",
   "status": "proved",
   "theorems": [
    "C45_is_zero",
    "C45_is_one",
    "C45_is_integer",
    "C45_is_rational",
    "C45_equal",
    "C45_equal_q"
   ],
   "note": "elements in canonical form, rationals in lowest terms"
  },
  {
   "property": "C46",
   "status": "proved",
   "theorems": [
    "C46_call",
    "C46_history"
   ],
   "note": "every modelled call that returns"
  },
  {
   "property": "C47",
   "status": "partial",
   "theorems": [
    "C47_stale_refuted",
    "C47_digits_refuted",
    "C47_archive_partial",
    "C47_into_partial",
    "C47_field_partial",
    "C47_bits"
   ],
   "note": "false: addresses of destroyed fields are mistaken for the old field, and too few digits of the enclosure are written; proved for whole archives whose fields stay alive and are made again from their texts, also where fields exist already"
  },
  {
   "property": "C48",
   "status": "partial",
   "theorems": [
    "C48_root_refuted",
    "C48_flint_refuted",
    "C48_callback_refuted",
    "C48_returns_partial",
    "C48_throws_partial",
    "C48_ends_partial",
    "C48_makes_partial"
   ],
   "note": "false: the ball given need not contain a root (with every ball arithmetic rounding like FLINT, C48_flint_refuted), and with a callback the precision may overflow; proved: at most one root in the ball, one when rounding the endpoints stays inside, exceptions only for the documented reasons, termination up to the refinement, and a field of the right root for small balls at sufficient precision, up to exponents beyond a machine word"
  },
  {
   "property": "C49",
   "status": "partial",
   "theorems": [
    "C49_no_overflow_refuted",
    "C49_flint_refuted",
    "C49_no_overflow_partial",
    "C49_defined_partial"
   ],
   "note": "false as stated: a ball centred at 0 overflows, with every ball arithmetic rounding like FLINT (C49_flint_refuted); proved for polynomials with nonzero constant coefficient and any ball arithmetic: creation is undefined only if twice the accuracy of an enclosure met overflows a word (or the enclosure is empty), and then or for a rejected ball only does it abort"
  },
  {
   "property": "C50",
   "status": "partial",
   "theorems": [
    "C50_embeddings_refuted",
    "C50_embeddings_flint_refuted",
    "C50_endless_refuted",
    "C50_small_partial",
    "C50_isolation_partial"
   ],
   "note": "false as stated: x^3-2(2^60x-1)^2 aborts at 64 bits with every ball arithmetic that rounds like FLINT, and for 6291455x^2-11264x+4 the call never returns at 64 bits and at every sufficiently large precision, shown with the concrete ball arithmetic dyops, not FLINT itself; proved for isolating intervals below some positive length (so not for all intervals that the call finds itself) at sufficient precision, up to exponents beyond a machine word"
  },
  {
   "property": "C51",
   "status": "partial",
   "theorems": [
    "C51_temporaries_refuted",
    "C51_temporaries_partial"
   ],
   "note": "false when the root is not unique; proved for all other ways out"
  },
  {
   "property": "C52",
   "status": "proved",
   "theorems": [
    "C52_add_fmpq"
   ],
   "note": "relative to _fmpq_add giving lowest terms"
  },
  {
   "property": "C53",
   "status": "proved",
   "theorems": [
    "C53_field_text",
    "C53_element_text",
    "C53_string",
    "C53_unset"
   ],
   "note": "all texts that are C strings; allocation is assumed to succeed"
  },
  {
   "property": "C54",
   "status": "partial",
   "theorems": [
    "C54_refine_ends_refuted",
    "C54_refine_ends_partial",
    "C54_margin_partial"
   ],
   "note": "false as stated: the refinement of a large enclosure of sqrt 2 never ends (dyops, not FLINT itself); proved for enclosures below a radius that exists for every field of degree at least two, relative to the contract arb_rate; undefined only if an enclosure made by Newton and bisection steps from the given one is so sharp that twice its accuracy overflows a word; the radius is given explicitly for every arithmetic that rounds like FLINT (arb_fl, arb_fine)"
  },
  {
   "property": "C55",
   "status": "partial",
   "theorems": [
    "C55_ends_refuted",
    "C55_history_partial",
    "C55_history_if_partial",
    "C55_get_d_partial",
    "C55_margin_partial"
   ],
   "note": "false as stated: the sign of an element of a field made at the default precision is never found, as in C54 (dyops, not FLINT itself); proved for fields whose enclosure is below the radius of C54, or whose refinement ends; get_arb with precision below 2^63-3; the radius is given explicitly for every arithmetic that rounds like FLINT (arb_fl, arb_fine)"
  },
  {
   "property": "C56",
   "status": "partial",
   "theorems": [
    "C56_programs_refuted",
    "C56_programs_flint_refuted",
    "C56_programs_partial"
   ],
   "note": "false for a tiny generator: the sign of 2^(-599/3) after an addition and a subtraction is undefined, with every ball arithmetic that rounds like FLINT; proved for fields of degree at least two with an enclosure below a radius that exists for every field and |x|^(degree-1) at least 2^(2-prec), for programs without the floor or ceiling of 0 in degree three or more and without get_arb precisions near 2^63, up to the overflow of a word for an enclosure of more than 2^61 bits"
  },
  {
   "property": "C57",
   "status": "proved",
   "theorems": [
    "C57_accepts",
    "C57_rejects"
   ],
   "note": "relative to the contracts arb_ok and, for rejecting, arb_conv; irreducible polynomials"
  },
  {
   "property": "C58",
   "status": "partial",
   "theorems": [
    "C58_negative_refuted",
    "C58_odd_partial",
    "C58_sharp_partial"
   ],
   "note": "false for negative d and odd n, which aborts; otherwise proved for calls that return, for odd n at every precision and for even n from some precision on, relative to arb_root_ui enclosing the root and converging"
  },
  {
   "property": "C59",
   "status": "proved",
   "theorems": [
    "C59_irreducible"
   ],
   "note": "relative to FLINT drawing a prime and a polynomial irreducible modulo it, with coefficients in 0..c-1"
  },
  {
   "property": "C60",
   "status": "partial",
   "theorems": [
    "C60_random_refuted",
    "C60_random_partial",
    "C60_interval"
   ],
   "note": "false: for the polynomial x (length 2) the root is exact and the call aborts; proved for calls that return and polynomials with a right root bound (C05)"
  },
  {
   "property": "C61",
   "status": "partial",
   "theorems": [
    "C61_same_results",
    "C61_equal_refuted",
    "C61_equal_partial",
    "C61_programs_partial"
   ],
   "note": "same results proved in full; equality after programs is false as refinement may leave the root (C18), proved for enclosures from which refinement stays at the root; that programs on copies return for small enclosures (see C56)"
  },
  {
   "property": "C62",
   "status": "proved",
   "theorems": [
    "C62_polynomial",
    "C62_element",
    "C62_raises"
   ],
   "note": "for lists shorter than 2^63; the empty list is an IndexError"
  },
  {
   "property": "C63",
   "status": "partial",
   "theorems": [
    "C63_interval_refuted",
    "C63_interval_partial",
    "C63_doubles"
   ],
   "note": "false: rounding to doubles loses short intervals far from zero; proved for intervals from l to u with |l+u| <= 2^51 (u-l), for doubles with unbounded exponents"
  },
  {
   "property": "C64",
   "status": "partial",
   "theorems": [
    "C64_field_refuted",
    "C64_field_partial",
    "C64_unread",
    "C64_text"
   ],
   "note": "false: leading coefficients that are negative or fractions, and the polynomial x, raise exceptions; proved for positive integers as leading coefficients and names starting with a letter, relative to contracts for SageMath; that a field is returned needs the other roots to be told apart at 256 bits"
  },
  {
   "property": "C65",
   "status": "partial",
   "theorems": [
    "C65_zero_refuted",
    "C65_vector",
    "C65_pickle_partial",
    "C65_back_partial",
    "C65_rational",
    "C65_integer",
    "C65_length"
   ],
   "note": "false for zero with FLINT before version 3, where the address of the first of no coefficients is taken; proved for all elements otherwise"
  },
  {
   "property": "C66",
   "status": "proved",
   "theorems": [
    "C66_int",
    "C66_rational",
    "C66_assign_int",
    "C66_assign_rational",
    "C66_vector",
    "C66_vector_long",
    "C66_negative",
    "C66_convert"
   ],
   "note": "relative to nf_ok; LP64 integer types"
  },
  {
   "property": "C67",
   "status": "partial",
   "theorems": [
    "C67_endless_refuted",
    "C67_callback_partial",
    "C67_two_roots"
   ],
   "note": "false as stated: an enclosure with the root only may be accepted and then never be refined, as in C54 (dyops, not FLINT itself); proved for callbacks whose enclosures hold the root and are below a radius that exists for every root or hold another root, up to the first one in which the root is not too close to the ends for the precision; up to exponents and precisions beyond a machine word"
  },
  {
   "property": "C68",
   "status": "partial",
   "theorems": [
    "C64_field_refuted",
    "C68_sage_partial",
    "C68_back_partial"
   ],
   "note": "the way back is false for 1/2 x^2 - 1 as in C64; making the field: as C67, relative to SageMath writing polynomials in the documented form; back: for positive integers as leading coefficients and roots that are told apart at 256 bits, as C64, relative to contracts for SageMath"
  },
  {
   "property": "C69",
   "status": "partial",
   "theorems": [
    "C69_elements",
    "C69_throws",
    "C69_right",
    "C69_left",
    "C69_plus",
    "C69_bool",
    "C69_relation_refuted",
    "C40_C43_C69_flint_refuted",
    "C69_relation_partial"
   ],
   "note": "arithmetic and the unary operators in full, relative to nf_ok; the relations are false because of the wrong refinement of C16 (C69_relation_refuted) and right whenever refinement cannot lose the root; boost/operators.hpp is modelled from its documentation"
  },
  {
   "property": "C70",
   "status": "partial",
   "theorems": [
    "C70_tidy_partial",
    "C70_unique_refuted",
    "C70_unique_answer",
    "C70_unique_partial",
    "C70_string_answer",
    "C70_string_partial",
    "C70_string_refuted"
   ],
   "note": "false for fmpq_poly_check_unique_real_root (also when it accepts) and for the constructor from a string when it throws: exactly which executions leak is proved for both; proved for the other functions written down, with conditions left open; destructors of C++ objects and temporaries of FLINT are not modelled"
  },
  {
   "property": "C71",
   "status": "partial",
   "theorems": [
    "C71_alone",
    "C71_threads_partial",
    "C71_right_partial",
    "C71_shared_refuted",
    "C71_ndebug_refuted"
   ],
   "note": "false for a shared element: the functions that only read write the enclosure in place, and another thread may see an enclosure of the first partial result (C71_shared_refuted: wrong sign); without assertions the mark is ignored (C71_ndebug_refuted); proved for threads that share no element one of them may write, with assertions compiled in, where the answers are also shown to be right whatever the enclosure of the generator (C71_right_partial), for reads and writes that are atomic and sequentially consistent"
  },
  {
   "property": "C72",
   "status": "partial",
   "theorems": [
    "C72_value_partial",
    "C72_arithmetic_partial",
    "C72_neg_partial",
    "C72_order_partial",
    "C72_foreign_refuted",
    "C72_higher_refuted",
    "C72_zero_refuted"
   ],
   "note": "false: an element of another field is accepted as it is and converts to another number (C72_foreign_refuted), a rational number of a field of higher degree cannot be converted (C72_higher_refuted), dividing by zero ends the process (C72_zero_refuted, for all elements); proved for C++ elements of the field of the parent and rational numbers of fields of at most its degree, the relations under the condition of C40 that refinement cannot lose the root"
  },
  {
   "property": "C73",
   "status": "partial",
   "theorems": [
    "C73_safe_partial",
    "C73_lifetime_partial",
    "C73_set",
    "C73_set_of",
    "C73_read_partial",
    "C73_dangling_refuted",
    "C73_reused_refuted",
    "C73_unset_refuted"
   ],
   "note": "false: the stream holds a pointer that is not counted, so reading after the last user of the field is gone uses destroyed memory (C73_dangling_refuted) or gives elements of a later field at the same address (C73_reused_refuted), and a stream without a field is a null pointer (C73_unset_refuted); proved for programs that read from a stream only while the field it was given exists; relative to the contract of the registry (C36)"
  },
  {
   "property": "C74",
   "status": "partial",
   "theorems": [
    "C74_print_refuted",
    "C74_undefined_flint_refuted",
    "C74_double_partial",
    "C74_put_partial",
    "C74_total_partial",
    "C74_ball",
    "C74_digits"
   ],
   "note": "false as refinement may leave the root (C18): 0.35 is printed as -0.35 (dyops), and undefined for tiny generators (every arithmetic that rounds like FLINT); proved for calls that return when refinement stays at the root; the ball is proved in full for finite enclosures; relative to contracts of arb_get_str (show8_ok, show_ok)"
  },
  {
   "property": "C75",
   "status": "partial",
   "theorems": [
    "C75_zero_refuted",
    "C75_coefficients_refuted",
    "C75_element_partial",
    "C75_rational_partial",
    "C75_coefficients_partial",
    "C75_nothing",
    "C75_convert",
    "C75_copy",
    "C75_text",
    "C75_realalg",
    "C75_realalg_rest",
    "C75_operator",
    "C75_reflected",
    "C75_elements",
    "C75_refused",
    "C75_gmp_digit"
   ],
   "note": "false as stated: dividing by zero ends the process, and so do lists longer than the degree with debugging; otherwise proved, relative to contracts for cppyy and for other objects, but for Python integers that do not fit a long (cppyy decides what they become) and the empty list before FLINT 3; gmpy2 is installed"
  },
  {
   "property": "C76",
   "status": "partial",
   "theorems": [
    "C76_degree",
    "C76_every",
    "C76_only",
    "C76_equal_refuted",
    "C76_equal_partial"
   ],
   "note": "the elements are proved to be the generated subfield in full; renf_equal is false as documented: the fields of sqrt 2 and -sqrt 2 are the same subfield and compare unequal; fields that compare equal are proved the same when no other root is as close as the enclosures are wide"
  },
  {
   "property": "C77",
   "status": "partial",
   "theorems": [
    "C77_destruction_refuted",
    "C77_search_refuted",
    "C77_acquire",
    "C77_destruction_partial",
    "C77_construction_partial",
    "C77_registry"
   ],
   "note": "false: the counter is decremented with memory_order_release and nothing acquires, so a use by one thread does not happen before the destruction by another (C77_destruction_refuted); with acq_rel it does (C77_acquire, about the code with that one change); make reads the fields of other threads while they may be refined (C77_search_refuted); proved when the program orders the drops itself, and for construction, in executions without revival (C37); the registry in all executions"
  },
  {
   "property": "C78",
   "status": "proved",
   "theorems": [
    "C78_arf",
    "C78_arf_exact",
    "C78_arf_rational",
    "C78_arb",
    "C78_arb_rational"
   ],
   "note": "floating point numbers without infinities and NaN and with exponents of any size; division relative to its rounding error, which qdiv meets (C78_division); balls relative to their contract"
  },
  {
   "property": "C79",
   "status": "partial",
   "theorems": [
    "C79_blanks_refuted",
    "C79_last_blank_refuted",
    "C79_end_refuted",
    "C79_failed_refuted",
    "C79_form_partial",
    "C79_text_partial",
    "C79_open_partial",
    "C79_answers_partial"
   ],
   "note": "false: blanks are dropped also inside numbers (\"(1 2)\" is 12), a parenthesis after a blank does not close, a stream ending with white space after an open parenthesis makes the code use a character that was never set, a stream that has failed gives 0; proved for texts of the documented form not ending with white space, for all texts without white space, for all streams of ASCII characters not ending with white space"
  },
  {
   "property": "C80",
   "status": "partial",
   "theorems": [
    "C80_lost_bits_refuted",
    "C80_lost_bits_absolute_partial",
    "C80_lost_bits_large_partial"
   ],
   "note": "false: with cancellation any number of further bits is lost, for every enclosing ball arithmetic and every working precision; proved: the number bounds the absolute error of the numerator up to the degree and one bit, and the relative error when the numerator is at least one"
  },
  {
   "property": "C81",
   "status": "partial",
   "theorems": [
    "C81_refined_refuted",
    "C81_refined_partial",
    "C81_explicit_partial"
   ],
   "note": "false: the enclosure of the field is not refined, so the result has at most the accuracy of the field however large the precision (at most 68 bits for the generator of a field created with 65), for every ball arithmetic rounding like FLINT; proved: if the field is sharp enough for the element and the precision large enough, the enclosure has the accuracy asked for; how sharp and how large is made explicit for degree at least two and every arithmetic that rounds like FLINT (arb_fl)"
  },
  {
   "property": "C82",
   "status": "proved",
   "theorems": [
    "C82_programs",
    "C82_doubles"
   ],
   "note": "relative to the contracts arb_ok, arb_conv, arb_rate, arb_fl, arb_fine and nf_ok; the exceptions are those named in the property: without them it is false (C20, C26_zero_refuted, C56_programs_refuted)"
  },
  {
   "property": "C83",
   "status": "proved",
   "theorems": [
    "C83_rationals"
   ],
   "note": "for every ball arithmetic meeting arb_ok; the generator is wrong in degree one (C20), get_arb is undefined for a ball around the generator 0 (C29_rational_refuted)"
  },
  {
   "property": "C84",
   "status": "proved",
   "theorems": [
    "C84_programs",
    "C84_objects"
   ],
   "note": "for every ball arithmetic meeting arb_ok, arb_conv, arb_fl and arb_fine; the calls left out are those refuted under C20, C26, C42 and C43"
  },
  {
   "property": "C85",
   "status": "proved",
   "theorems": [
    "C85_abs",
    "C85_bound"
   ],
   "note": "fmpz_poly_fit_length and _fmpz_poly_set_length as documented by FLINT, with any further allocation; memory is not exhausted"
  },
  {
   "property": "C86",
   "status": "partial",
   "theorems": [
    "C86_newton_refuted",
    "C86_newton_never",
    "C86_newton_partial",
    "C86_newton_value",
    "C86_bisection",
    "C86_bisection_value",
    "C86_bisection_root"
   ],
   "note": "false for the step of Newton in place, which always returns 0 and loses the root, with every ball arithmetic that rounds like FLINT; proved for the step of Newton with different objects and for bisection in place or not"
  },
  {
   "property": "C87",
   "status": "proved",
   "theorems": [
    "C87_arrays",
    "C87_isolate",
    "C87_null",
    "C87_append",
    "C87_zero"
   ],
   "note": "the exact roots are modelled as dyadic numbers, the fractions made of them by FLINT are not; which roots are within the bounds is C06"
  },
  {
   "property": "C88",
   "status": "proved",
   "theorems": [
    "C88_embeddings",
    "C88_short",
    "C88_random",
    "C88_length",
    "C88_count",
    "C88_zero"
   ],
   "note": "flint_malloc does not fail; the polynomials are lists; what the fields are is C08 and C60"
  },
  {
   "property": "C89",
   "status": "proved",
   "theorems": [
    "C89_descartes",
    "C89_marks",
    "C89_bound",
    "C89_upper",
    "C89_scale"
   ],
   "note": "fmpz_clog_ui, fmpz_flog_ui, _fmpz_poly_scale_2exp, _fmpz_poly_taylor_shift and _fmpz_poly_primitive_part as documented; fmpz_flog_ui(0, 2), which the code calls outside of its domain, returns any number of at most 2^60; no other allocation fails"
  },
  {
   "property": "C90",
   "status": "proved",
   "theorems": [
    "C90_words",
    "C90_isolate",
    "C90_unit",
    "C90_zero"
   ],
   "note": "routines called as in C89; fmpq_mul_2exp, fmpq_div_2exp and fmpz arithmetic exact; isolations of more than 2^60 turns are not covered"
  },
  {
   "property": "C91",
   "status": "proved",
   "theorems": [
    "C91_has",
    "C91_sturm",
    "C91_evaluate",
    "C91_cond"
   ],
   "note": "prem_ok is the contract of fmpz_poly_pseudo_rem; _fmpz_poly_num_real_roots, fmpz_poly_derivative, fmpz_poly_content and the arb and arf operations as documented; evaluation in place is also in C78, without indices"
  },
  {
   "property": "C92",
   "status": "proved",
   "theorems": [
    "C92_read",
    "C92_term"
   ],
   "note": "strlen, strncmp, strncpy, strtol and fmpq_set_str as documented, reading up to the terminator at most; an allocation does not fail; undefined calls of isdigit are those of C32"
  },
  {
   "property": "C93",
   "status": "proved",
   "theorems": [
    "C93_inside",
    "C93_values",
    "C93_negative",
    "C93_short"
   ],
   "note": "C93_values needs the setting of C20-C31 (contracts of arb and antic, a field and an element whose balls are right); that wrong balls can be reached is the finding of C28. The entries of the array are initialized and not shared with the elements"
  },
  {
   "property": "C94",
   "status": "proved",
   "theorems": [
    "C94_defined",
    "C94_released",
    "C94_kept",
    "C94_field",
    "C94_element",
    "C94_representation",
    "C94_again"
   ],
   "note": "the initializers and releases of FLINT, antic and arb are a pair per member, with three representations of elements chosen by the length of the polynomial; an operation reads the members and keeps them initialized"
  },
  {
   "property": "C95",
   "status": "partial",
   "theorems": [
    "C95_exact_refuted",
    "C95_least_refuted",
    "C95_right_partial",
    "C95_unbounded_partial",
    "C95_only_partial",
    "C95_sign_partial",
    "C95_compare_partial",
    "C95_rational_partial",
    "C95_round_partial",
    "C95_infinite_partial",
    "C95_ball_partial",
    "C95_abort_partial",
    "C95_double_partial",
    "C95_double_unbounded_partial",
    "C95_double_only_partial",
    "C95_hash_partial"
   ],
   "note": "false for a ball of WORD_MAX bits (ARF_PREC_EXACT), where -prec-2 overflows for every element other than 0, and for WORD_MIN, where -prec does. Whenever an answer is returned it is that of the functions with unbounded precisions (C95_unbounded_partial) and right in the setting of C20-C31 (C95_right_partial); the same for doubles and hashes (C95_double_partial, C95_double_unbounded_partial, C95_hash_partial). The only other outcomes are an overflow and the abort of roundings (C95_only_partial, C95_double_only_partial). That there is no overflow is shown as long as the precision may be doubled fuel times within 2^62 and condition numbers are at most 2^61 (balls of -WORD_MAX to WORD_MAX-2 bits), not for fdiv.c and get_d.c; roundings with longer ends abort (C95_abort_partial); the words inside of the refinement are not covered"
  }
 ]
}