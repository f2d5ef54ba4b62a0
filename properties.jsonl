{"id": "C01", "title": "Descartes test on (0,1) never lies", "statement": "For every nonzero integer polynomial p and every bound B: if the Descartes test on (0,1) answers a number v (not \"too many\"), then p has at most v real roots in the open interval (0,1), counted with multiplicity; the answer 0 means no root, the answer 1 means exactly one (simple) root. It answers \"too many\" (WORD_MAX) exactly when the number of sign changes of (1+x)^n p(1/(1+x)) exceeds B, whatever early exits are taken.", "quantifier": "all nonzero integer polynomials of any degree and coefficient size, all bounds", "why_tests_cant": "Polynomials and coefficients are unbounded; the early exits and the zero-coefficient cases interact with the position of sign changes.", "anchors": ["libeantic/src/fmpz_poly_extra/descartes_bound_0_1.c:_fmpz_poly_descartes_bound_0_1"]}
{"id": "C02", "title": "Real root isolation in [0,1) is sound and complete", "statement": "Whenever the bisection isolation on [0,1) returns for a nonzero integer polynomial p, the reported exact dyadic roots are roots of p, each reported dyadic open interval contains exactly one root of p, every root of p in [0,1) is either one of the exact roots or lies in exactly one interval, both lists are strictly increasing (exact roots are repeated according to multiplicity), and no two intervals overlap.", "quantifier": "all nonzero integer polynomials on which the loop ends (any degree, any coefficients)", "why_tests_cant": "The interval bookkeeping walks an unbounded binary tree; an error in a carry or in a scaling only shows for particular root configurations.", "anchors": ["libeantic/src/fmpz_poly_extra/isolate_real_roots.c:_fmpz_poly_isolate_real_roots_0_1_vca"]}
{"id": "C03", "title": "Real root isolation terminates on squarefree polynomials", "statement": "For every integer polynomial that has no multiple real root in [0,1], the isolation loop ends after finitely many steps; hence together with C02 the real roots in [0,1) are always found.", "quantifier": "all nonzero integer polynomials without multiple roots in [0,1]", "why_tests_cant": "Termination for all inputs cannot be observed by running finitely many of them; the number of steps depends on root separation, which has no a priori bound.", "anchors": ["libeantic/src/fmpz_poly_extra/isolate_real_roots.c:_fmpz_poly_isolate_real_roots_0_1_vca"]}
{"id": "C04", "title": "Counting roots in the unit interval", "statement": "For every squarefree nonzero integer polynomial p, fmpz_poly_num_real_roots_0_1(p) (and its vca variant) returns the number of distinct real roots of p in [0,1).", "quantifier": "all squarefree nonzero integer polynomials", "why_tests_cant": "Unbounded inputs; the count at the two end points is decided by the last iteration of a loop.", "anchors": ["libeantic/src/fmpz_poly_extra/num_real_roots_0_1.c", "libeantic/src/fmpz_poly_extra/num_real_roots_0_1_vca.c"]}
{"id": "C05", "title": "Power of two above all positive roots", "statement": "For every nonzero integer polynomial p, fmpz_poly_positive_root_upper_bound_2exp returns k such that every positive real root of p is at most 2^k; if it returns WORD_MIN then p has no positive real root.", "quantifier": "all nonzero integer polynomials", "why_tests_cant": "The bound combines logarithms of coefficients by a greedy charging scheme; it can be wrong for one particular sign pattern among infinitely many.", "anchors": ["libeantic/src/fmpz_poly_extra/positive_root_upper_bound_2exp.c:_fmpz_poly_positive_root_upper_bound_2exp_local_max"]}
{"id": "C06", "title": "Isolation of all real roots of a polynomial", "statement": "For every nonzero integer polynomial p on which it returns, fmpz_poly_isolate_real_roots reports every real root of p exactly once: as an exact dyadic rational or as an open dyadic interval with exactly one root of p, everything sorted from the most negative to the most positive.", "quantifier": "all nonzero integer polynomials on which the procedure returns", "why_tests_cant": "Combines a root bound, a reflection, array reversals and the isolation loop; finitely many polynomials cannot cover the configurations.", "anchors": ["libeantic/src/fmpz_poly_extra/isolate_real_roots.c:fmpz_poly_isolate_real_roots", "libeantic/src/fmpz_poly_extra/num_real_roots_vca.c"]}
{"id": "C07", "title": "Upper bound on the number of real roots", "statement": "For every nonzero integer polynomial p, fmpz_poly_num_real_roots_upper_bound(p) is at least the number of real roots of p counted with multiplicity.", "quantifier": "all nonzero integer polynomials", "why_tests_cant": "An upper bound on a quantity over infinitely many polynomials.", "anchors": ["libeantic/src/fmpz_poly_extra/descartes_bound.c:fmpz_poly_num_real_roots_upper_bound"]}
{"id": "C08", "title": "Creating all embeddings never overruns its buffers", "statement": "When all real embeddings of a polynomial are created, the number of interval slots written during root isolation never exceeds the number allocated (the Descartes based upper bound), for every polynomial, even one for which the root bound is wrong; and the created fields are embedded at the first of the real roots in increasing order, each enclosure holding its root.", "quantifier": "all nonzero integer polynomials on which the isolation returns", "why_tests_cant": "A heap overflow would need one polynomial out of infinitely many in which two independent counts disagree.", "anchors": ["libeantic/src/renf/set_embeddings_fmpz_poly.c:renf_set_embeddings_fmpz_poly"]}
{"id": "C09", "title": "Deciding whether a polynomial has a real root", "statement": "For every nonzero integer polynomial p, fmpz_poly_has_real_root(p) is 1 exactly when p has a real root.", "quantifier": "all nonzero integer polynomials", "why_tests_cant": "Shortcut tests by parity of sign changes are claimed for all coefficient patterns.", "anchors": ["libeantic/src/fmpz_poly_extra/has_real_root.c"]}
{"id": "C10", "title": "Sturm count on the unit interval", "statement": "For every squarefree integer polynomial p of positive degree that does not vanish at 0 and 1, fmpz_poly_num_real_roots_0_1_sturm(p) equals the number of real roots of p in (0,1).", "quantifier": "all squarefree integer polynomials nonvanishing at 0 and 1", "why_tests_cant": "A sign change must be counted exactly once through zero entries anywhere in a remainder sequence; random polynomials rarely have vanishing entries.", "anchors": ["libeantic/src/fmpz_poly_extra/num_real_roots_0_1_sturm.c"]}
{"id": "C11", "title": "Affine rescaling to the unit interval", "statement": "For every integer polynomial p and rationals a<b, the polynomial computed by fmpz_poly_scale_0_1_fmpq has the value 0 at x exactly when p is 0 at a+(b-a)x, for every real x; it is a positive multiple of p(a+(b-a)x) when the leading coefficient of p is positive (a negative multiple when it is negative and the degree positive).", "quantifier": "all integer polynomials, all pairs of rationals with positive denominators", "why_tests_cant": "Infinitely many intervals and polynomials, including zero content.", "anchors": ["libeantic/src/fmpz_poly_extra/scale_0_1_fmpq.c"]}
{"id": "C12", "title": "Squarefree part keeps the roots", "statement": "For every nonzero integer polynomial p, the squarefree part has exactly the real roots of p, each a simple root, and a positive leading coefficient when its degree is positive.", "quantifier": "all nonzero integer polynomials", "why_tests_cant": "Unbounded degree and multiplicities.", "anchors": ["libeantic/src/fmpz_poly_extra/squarefree_part.c"]}
{"id": "C13", "title": "Ball evaluation of polynomials encloses", "statement": "For every polynomial with integer (or rational) coefficients, every ball a, every x in a and every working precision, the ball evaluation of the polynomial at a contains the exact value at x.", "quantifier": "all polynomials, balls, points, precisions", "why_tests_cant": "A continuum of points, unbounded degrees and precisions.", "anchors": ["libeantic/src/fmpz_poly_extra/evaluate.c", "libeantic/src/fmpq_poly_extra/evaluate.c"]}
{"id": "C14", "title": "Condition number bounds absolute values", "statement": "The condition number 2^c reported for a polynomial and a ball is an upper bound for sum |p_i||x|^i for every x in the ball.", "quantifier": "all polynomials, balls and points of the ball", "why_tests_cant": "A continuum of points and unbounded degrees.", "anchors": ["libeantic/src/fmpz_poly_extra/relative_condition_number_2exp.c", "libeantic/src/renf_elem/relative_condition_number_2exp.c"]}
{"id": "C15", "title": "Newton step never loses the root", "statement": "For every integer polynomial p, ball a, root x of p in a and precision: the ball produced by a Newton step that does not give up contains x, and a step reported as successful produces a ball inside a, different from a.", "quantifier": "all polynomials, balls, roots, precisions", "why_tests_cant": "A continuum of balls; a lost root silently makes every later comparison wrong.", "anchors": ["libeantic/src/fmpz_poly_extra/newton_step_arb.c"]}
{"id": "C16", "title": "Bisection step never loses the root", "statement": "For every integer polynomial p, ball a isolating a simple root x of p and precision: the ball produced by a successful bisection step contains x.", "quantifier": "all polynomials, isolating balls, roots, precisions", "why_tests_cant": "A continuum of balls and precisions, including end points rounded outwards past another root.", "anchors": ["libeantic/src/fmpz_poly_extra/bisection_step_arb.c"]}
{"id": "C17", "title": "Embedding validation accepts only isolating balls", "statement": "If fmpq_poly_check_unique_real_root(p,a,prec) returns 1 then the ball a contains exactly one real root of p.", "quantifier": "all rational polynomials, balls and precisions", "why_tests_cant": "A continuum of balls and precisions.", "anchors": ["libeantic/src/fmpq_poly_extra/check_unique_real_root.c"]}
{"id": "C18", "title": "Refining an embedding keeps the field", "statement": "Starting from a field whose enclosure isolates the chosen root, every sequence of refinements leaves an enclosure that still contains the chosen root and no other, with the requested relative accuracy, leaves the defining polynomial unchanged, and the stored precision never decreases.", "quantifier": "all fields, all histories of refinement requests", "why_tests_cant": "Any number of refinements at any precision; only the accumulated effect matters.", "anchors": ["libeantic/src/renf/refine_embedding.c", "libeantic/src/renf/init.c"]}
{"id": "C19", "title": "Field equality recognises equal embeddings", "statement": "Two fields built from the same polynomial and the same real root compare equal whatever the precision of their enclosures, and fields that compare equal have the same polynomial and the same root.", "quantifier": "all pairs of fields, all refinement histories", "why_tests_cant": "Depends on enclosures reached by arbitrary histories.", "anchors": ["libeantic/src/renf/equal.c"]}
{"id": "C20", "title": "The generator is the chosen root", "statement": "In every number field, including fields of degree one, the element returned as generator represents the chosen real root.", "quantifier": "all fields of every degree", "why_tests_cant": "Each of the three internal representations has its own code; degree-one fields with a generator other than 1 or -1 are needed.", "anchors": ["libeantic/src/renf_elem/gen.c"]}
{"id": "C21", "title": "Enclosures always contain the exact value", "statement": "After any sequence of element operations (constructors, ring operations with elements, machine integers, integers, rationals, inversion, powers, re-evaluation, refinements, swaps) each element's ball contains the exact real number represented by the element.", "quantifier": "all histories of operations over all elements and fields", "why_tests_cant": "A history property; one wrong enclosure poisons comparisons much later.", "anchors": ["libeantic/src/renf_elem/add.c", "libeantic/src/renf_elem/mul.c", "libeantic/src/renf_elem/set_evaluation.c", "libeantic/src/renf_elem/inv.c"]}
{"id": "C22", "title": "Arithmetic computes the field operation", "statement": "Every arithmetic function stores the exact result its documentation announces (a = b OP c, inverse, opposite, power), for all operands of all types, including output aliasing an operand.", "quantifier": "all operands, all three representations", "why_tests_cant": "Infinitely many operands and many type variants.", "anchors": ["libeantic/src/renf_elem/div.c", "libeantic/src/renf_elem/fmpq_div.c", "libeantic/src/renf_elem/fmpq_sub.c"]}
{"id": "C23", "title": "Sign is the sign of the real number", "statement": "The sign function returns -1, 0 or 1 according to the exact real number, whatever the state of the enclosures and precision.", "quantifier": "all elements, all enclosure states", "why_tests_cant": "Elements arbitrarily close to zero need unbounded precision.", "anchors": ["libeantic/src/renf_elem/sgn.c"]}
{"id": "C24", "title": "Comparison of two elements", "statement": "Comparing two elements of a field returns the order of the two real numbers; so it is a total order (antisymmetric, transitive, total) and returns 0 exactly when the elements are equal, independent of enclosures.", "quantifier": "all pairs and triples of elements, all enclosure states", "why_tests_cant": "Elements arbitrarily close to each other need unbounded precision.", "anchors": ["libeantic/src/renf_elem/cmp.c"]}
{"id": "C25", "title": "Comparison with integers and rationals", "statement": "Comparing an element with a rational, integer, signed or unsigned machine integer returns the order of the two real numbers.", "quantifier": "all elements, all rationals and integers, all enclosure states", "why_tests_cant": "Unbounded precision; one code path per representation and per type.", "anchors": ["libeantic/src/renf_elem/cmp_fmpq.c", "libeantic/src/renf_elem/cmp_fmpz.c", "libeantic/src/renf_elem/cmp_si.c", "libeantic/src/renf_elem/cmp_ui.c"]}
{"id": "C26", "title": "Floor and ceiling", "statement": "For every element x, floor returns the integer n with n <= x < n+1 and ceil the integer n with n-1 < x <= n, whatever operations produced the element.", "quantifier": "all elements in all reachable memory states", "why_tests_cant": "Depends on leftovers in memory from earlier operations as well as on unbounded precision.", "anchors": ["libeantic/src/renf_elem/floor_ceil.c", "libeantic/src/renf_elem/rounding_template.h"]}
{"id": "C27", "title": "Floor division", "statement": "Floor division of b by nonzero c returns the integer n with n <= b/c < n+1.", "quantifier": "all pairs of elements with nonzero divisor", "why_tests_cant": "Quotients arbitrarily close to an integer.", "anchors": ["libeantic/src/renf_elem/fdiv.c"]}
{"id": "C28", "title": "Continued fraction expansion", "statement": "The partial quotients returned for an element are the successive floors of the continued fraction expansion of the real number, all but the first positive, and together with the remainder they reconstruct the element exactly; the number of quotients returned is smaller than requested only if the element is rational with remainder 0.", "quantifier": "all elements, all lengths", "why_tests_cant": "Unbounded number of steps.", "anchors": ["libeantic/src/renf_elem/get_cfrac.c"]}
{"id": "C29", "title": "Requested ball accuracy", "statement": "The ball returned for an element at a requested precision contains the exact value and has the requested relative accuracy.", "quantifier": "all elements, precisions, enclosure states", "why_tests_cant": "A continuum of values and unbounded precision.", "anchors": ["libeantic/src/renf_elem/get_arb.c"]}
{"id": "C30", "title": "Conversion to double", "statement": "The conversion of an element to double returns the real number correctly rounded in the requested direction (floor, ceiling, towards zero, away, nearest), for every element; larger elements never convert to smaller doubles.", "quantifier": "all elements, all rounding modes, all enclosure states", "why_tests_cant": "Rounding boundaries, subnormal and overflow ranges are rare inputs.", "anchors": ["libeantic/src/renf_elem/get_d.c"]}
{"id": "C31", "title": "Answers do not depend on history", "statement": "Sign, comparison, floor, ceiling and conversions of an element give the same answer whatever refinements and re-evaluations happened before and whatever the default precision of the field.", "quantifier": "all elements and all pairs of histories", "why_tests_cant": "Quantifies over pairs of histories.", "anchors": ["libeantic/src/renf_elem/sgn.c", "libeantic/src/renf_elem/cmp.c", "libeantic/src/renf_elem/set_evaluation.c"]}
{"id": "C32", "title": "Parsing polynomials from strings", "statement": "Every string of the documented form (signed sum of coefficient*variable^exponent terms) is parsed to the polynomial it denotes, whatever whitespace it contains, and the value of the result is determined by the string alone, not by what the target held before; malformed strings are rejected.", "quantifier": "all strings and all previous contents of the target", "why_tests_cant": "Infinitely many strings and leftovers.", "anchors": ["libeantic/src/fmpq_poly_extra/set_str_pretty.c", "libeantic/src/fmpz_poly_extra/set_str_pretty.c"]}
{"id": "C33", "title": "Printing then parsing gives the element back", "statement": "The string written for an element (with or without the decimal approximation) is read back as an element of the same field equal to it.", "quantifier": "all elements of all fields", "why_tests_cant": "Infinitely many elements; signs, unit coefficients, zero and denominators are separate cases.", "anchors": ["libeantic/src/renf_elem/get_str_pretty.c", "libeantic/srcxx/renf_elem_class.cpp:renf_elem_class(const renf_class&, const std::string&)"]}
{"id": "C34", "title": "Reading elements from a stream", "statement": "Reading consecutive elements written to one stream separated by blanks gives the elements back one after another.", "quantifier": "all sequences of elements", "why_tests_cant": "Stream position after each extraction depends on what was read before.", "anchors": ["libeantic/srcxx/renf_class.cpp:operator>>", "libeantic/srcxx/renf_class.cpp:operator<<"]}
{"id": "C35", "title": "A field lives exactly as long as it is used (one thread)", "statement": "For every sequence of field and element creations, copies, moves, assignments, swaps and destructions in one thread, no object is used after its destruction, nothing is destroyed twice, a field exists exactly as long as some handle or element refers to it, and nothing is leaked once all are gone.", "quantifier": "all finite histories of operations", "why_tests_cant": "Reference counts depend on the whole history, including the hidden self references of a field.", "anchors": ["libeantic/srcxx/renf_class.cpp:intrusive_ptr_release", "libeantic/srcxx/renf_class.cpp:intrusive_ptr_add_ref", "libeantic/srcxx/renf_class.cpp:make"]}
{"id": "C36", "title": "Fields are unique", "statement": "Making a field twice from the same polynomial, root and generator name while the first is alive gives the very same field object; different fields are never identified.", "quantifier": "all histories of makes and releases", "why_tests_cant": "Depends on the registry content reached by arbitrary histories and on hashing of refined enclosures.", "anchors": ["libeantic/srcxx/renf_class.cpp:make", "libeantic/srcxx/renf_class.cpp:fields_hasher", "libeantic/srcxx/renf_class.cpp:fields_equality"]}
{"id": "C37", "title": "Fields can be shared between threads", "statement": "If several threads make, copy and drop handles to fields concurrently, no thread ever holds a handle to a destroyed field and no field is destroyed twice.", "quantifier": "all interleavings of any number of threads", "why_tests_cant": "Needs one unlucky schedule between the decrement of a counter and the acquisition of a lock.", "anchors": ["libeantic/srcxx/renf_class.cpp:intrusive_ptr_release", "libeantic/srcxx/renf_class.cpp:make"]}
{"id": "C38", "title": "Element storage is owned exactly once", "statement": "Under any sequence of copy construction, move construction, copy assignment, move assignment, swap and destruction, each element's storage is released exactly once, and the values are those expected from copy/move semantics, including self-assignment.", "quantifier": "all histories of operations on any number of element objects", "why_tests_cant": "Ownership depends on the whole history; moved-from objects and self moves are corner cases.", "anchors": ["libeantic/srcxx/renf_elem_class.cpp:operator=", "libeantic/srcxx/renf_elem_class.cpp:swap"]}
{"id": "C39", "title": "Arithmetic between elements of different fields", "statement": "For elements x, y of any fields, x OP y has the value of the exact real operation whenever both lie in the same field or at least one of them is rational, and throws otherwise. (A library compiled with LIBEANTIC_STRICT_BINOP throws whenever the fields differ and neither is the rational field.)", "quantifier": "all pairs of elements of all fields, all four operations", "why_tests_cant": "Combinations of field membership, rationality and operation.", "anchors": ["libeantic/srcxx/renf_elem_class.cpp:binop", "libeantic/srcxx/renf_elem_class.cpp:coerce"]}
{"id": "C40", "title": "Relational operators across types and fields", "statement": "For elements x, y of any fields and any integer or rational c of any supported type, ==, <, >, <=, >=, != agree with the order of the real numbers, or throw when both are irrational in different fields.", "quantifier": "all pairs of elements of all fields, all machine integers, integers and rationals", "why_tests_cant": "Combinations of fields, types and values.", "anchors": ["libeantic/srcxx/renf_elem_class.cpp:operator==", "libeantic/srcxx/renf_elem_class.cpp:operator<", "libeantic/srcxx/renf_elem_class.cpp:maybe_fmpz"]}
{"id": "C41", "title": "Equal elements have equal hashes", "statement": "Elements that compare equal hash to the same value, whatever their fields and their refinement histories, so hash containers work.", "quantifier": "all pairs of equal elements and all histories", "why_tests_cant": "Quantifies over pairs of histories.", "anchors": ["libeantic/srcxx/renf_elem_class.cpp:hash", "libeantic/src/renf_elem/get_d.c"]}
{"id": "C42", "title": "Integer powers", "statement": "pow(n) returns x^n for every int n and nonzero x (and for zero x with n >= 0).", "quantifier": "all elements and all int exponents", "why_tests_cant": "One of 2^32 exponents per element, infinitely many elements.", "anchors": ["libeantic/srcxx/renf_elem_class.cpp:pow", "libeantic/src/renf_elem/pow.c"]}
{"id": "C43", "title": "Floor division across fields", "statement": "floordiv(y) returns floor(x/y) for y nonzero whenever both are in one field or one is rational, and throws when both are irrational in different fields.", "quantifier": "all pairs of elements of all fields", "why_tests_cant": "Combinations of field membership and rationality.", "anchors": ["libeantic/srcxx/renf_elem_class.cpp:floordiv"]}
{"id": "C44", "title": "Numerators and denominators describe the element", "statement": "For every element, num_vector, den and num_content satisfy: the element is sum num_vector[i] a^i / den with den positive, coprime to the content, num_content is the gcd of num_vector; for rational elements num/den and the conversions to integer and rational give the exact value.", "quantifier": "all elements of all three representations", "why_tests_cant": "Infinitely many elements and three representations.", "anchors": ["libeantic/srcxx/renf_elem_class.cpp:num_vector", "libeantic/srcxx/renf_elem_class.cpp:den", "libeantic/srcxx/renf_elem_class.cpp:num_content"]}
{"id": "C45", "title": "Predicates on elements are exact", "statement": "is_zero, is_one, is_integer, is_rational and the equality functions with elements, integers and rationals hold exactly when the real number has that property.", "quantifier": "all elements of all fields with irreducible polynomial", "why_tests_cant": "Infinitely many elements and three representations.", "anchors": ["libeantic/src/renf_elem/is_zero.c", "libeantic/src/renf_elem/is_integer.c", "libeantic/src/renf_elem/equal.c"]}
{"id": "C46", "title": "Immutable enclosures are not touched and locking is balanced", "statement": "Reading functions never change an element's real value or the field's polynomial, and the immutability mark of a field is the same before and after every public call.", "quantifier": "all public calls, all states, builds with and without assertions", "why_tests_cant": "Quantifies over all calls, states and builds.", "anchors": ["libeantic/src/renf/set_immutable.c", "libeantic/src/renf/refine_embedding.c"]}
{"id": "C47", "title": "Serialization round trip", "statement": "Saving and loading any archive of elements restores elements equal to the saved ones, sharing fields exactly as before.", "quantifier": "all sequences of saved elements over all fields", "why_tests_cant": "Sharing of fields inside an archive depends on the whole sequence.", "anchors": ["libeantic/e-antic/cereal.hpp"]}
{"id": "C48", "title": "Making a field from a string ends or throws", "statement": "Making a field from a polynomial string and an embedding string either returns a field whose generator is the unique root in the given ball or throws; it never hands out a field with an ambiguous root.", "quantifier": "all strings, precisions", "why_tests_cant": "Infinitely many strings and precisions.", "anchors": ["libeantic/srcxx/renf_class.cpp:make"]}
{"id": "C49", "title": "Creating a field has no undefined behaviour", "statement": "For every polynomial, every ball accepted as isolating a root of it and every precision >= 2, creating the field causes no signed overflow and calls ball arithmetic only with valid precisions.", "quantifier": "all polynomials, accepted balls and precisions", "why_tests_cant": "The overflow needs a ball with a special midpoint; the set of balls is infinite.", "anchors": ["libeantic/src/renf/refine_embedding.c:34", "libeantic/src/renf/init.c"]}
{"id": "C50", "title": "All real embeddings of an irreducible polynomial can be created", "statement": "For every irreducible polynomial of degree at least 2 and every precision >= 2, creating all real embeddings returns the fields; it does not abort.", "quantifier": "all irreducible polynomials, limits and precisions >= 2", "why_tests_cant": "It fails only for polynomials with a tiny value at an endpoint of an isolating interval; infinitely many polynomials.", "anchors": ["libeantic/src/renf/set_embeddings_fmpz_poly.c:50-60", "libeantic/src/fmpq_poly_extra/check_unique_real_root.c:63-89"]}
{"id": "C51", "title": "Making a field from strings releases its temporaries", "statement": "Whether making a field from a polynomial string and an embedding string returns or throws, the temporary polynomial and ball are released exactly once.", "quantifier": "all strings, precisions and callbacks", "why_tests_cant": "A leak on one exceptional path is not visible in results.", "anchors": ["libeantic/srcxx/renf_class.cpp:124-165"]}
{"id": "C52", "title": "Adding a fraction to a rational polynomial", "statement": "For every rational polynomial p in canonical form and every fraction c in lowest terms, the patched fmpq_poly_add_fmpq stores p + c in canonical form: positive denominator, no common factor, no leading zero.", "quantifier": "all polynomials of every length and all fractions", "why_tests_cant": "The code has a branch for every relation between the two denominators; a missed common factor leaves the value right and breaks later equality tests.", "anchors": ["libeantic/upstream/patched/fmpq_poly_add_fmpq.c:14-102"]}
{"id": "C53", "title": "Printing stays inside its buffers and writes the documented text", "statement": "renf_get_str returns a block holding exactly NumberField(polynomial, enclosure); renf_elem_get_str_pretty returns a block holding exactly the polynomial, the approximation, or both joined by \" ~ \", as the flags say. No byte outside a block is read or written, and no uninitialized byte is read.", "quantifier": "all polynomials, enclosures, doubles and flags", "why_tests_cant": "The buffer sizes are sums of string lengths; an overflow by one byte is often invisible.", "anchors": ["libeantic/src/renf/get_str.c:19-33", "libeantic/src/renf_elem/get_str_pretty.c:28-105"]}
{"id": "C54", "title": "Refining an embedding ends", "statement": "For every field whose enclosure isolates its root and every wanted precision, refining the embedding returns after finitely many steps, with an enclosure of the same root that has the wanted relative accuracy, unless twice the accuracy in bits overflows a word.", "quantifier": "all fields of degree at least two, all enclosures, all precisions", "why_tests_cant": "An endless loop depends on the enclosure and on rounding; tests only try a few fields.", "anchors": ["libeantic/src/renf/refine_embedding.c:20-64", "libeantic/src/fmpz_poly_extra/bisection_step_arb.c:16-108", "libeantic/src/fmpz_poly_extra/newton_step_arb.c"]}
{"id": "C55", "title": "Calls on elements end", "statement": "Sign, comparisons, floor, ceiling, floor division, continued fractions, balls of a given relative accuracy and doubles in every rounding mode are found in finitely many steps, for every element, in every order and number of calls; no loop runs forever.", "quantifier": "all fields, elements and histories of calls", "why_tests_cant": "The loops double a precision until the answer is determined; that they end depends on the element.", "anchors": ["libeantic/src/renf_elem/sgn.c", "libeantic/src/renf_elem/cmp.c", "libeantic/src/renf_elem/get_arb.c", "libeantic/src/renf_elem/get_cfrac.c", "libeantic/src/renf_elem/get_d.c", "libeantic/src/renf_elem/fdiv.c"]}
{"id": "C56", "title": "Valid programs run to completion with exact values", "statement": "Every program of arithmetic, comparisons, roundings and enclosure queries on the elements of one field, without division by zero and with precisions of at least two bits, returns: no abort, no undefined behaviour and no endless loop; each result is that of exact real arithmetic.", "quantifier": "all fields of degree at least two, all programs of every length, all states of the stored enclosures", "why_tests_cant": "Whether the hundredth call returns depends on all enclosures computed before it; programs are unbounded.", "anchors": ["libeantic/src/renf_elem/sgn.c", "libeantic/src/renf_elem/cmp.c", "libeantic/src/renf_elem/floor_ceil.c", "libeantic/src/renf_elem/fdiv.c", "libeantic/src/renf_elem/get_cfrac.c", "libeantic/src/renf/refine_embedding.c", "libeantic/src/renf_elem/set_evaluation.c"]}
{"id": "C57", "title": "Checking the enclosure of an element", "statement": "renf_elem_check_embedding at a precision of at least 2 never aborts for an element whose enclosure contains its value, and aborts for every wrong enclosure if the enclosure of the field is sharp enough and the precision large enough.", "quantifier": "all elements, enclosures and fields", "why_tests_cant": "A check that lets wrong enclosures pass is never noticed by tests that only see right ones.", "anchors": ["libeantic/src/renf_elem/check_embedding.c:20-49"]}
{"id": "C58", "title": "Fields of n-th roots", "statement": "For every rational number d with a real n-th root such that X^n - d is irreducible, renf_init_nth_root_fmpq makes the field with polynomial X^n - d embedded at the real n-th root of d, the positive one if n is even.", "quantifier": "all rational d, all n >= 1, all precisions >= 2", "why_tests_cant": "Infinitely many numbers, exponents and precisions.", "anchors": ["libeantic/src/renf/init_nth_root.c:19-43"]}
{"id": "C59", "title": "Random irreducible polynomials are irreducible", "statement": "fmpz_poly_randtest_irreducible returns a polynomial of the length drawn that is irreducible over the rational numbers, whatever the prime, the polynomial irreducible modulo it and the random signs.", "quantifier": "all primes, irreducible polynomials modulo them and sign choices", "why_tests_cant": "Irreducibility over the rational numbers is not tested by evaluating anything; the choices are infinite.", "anchors": ["libeantic/src/fmpz_poly_extra/randtest_irreducible.c:19-58"]}
{"id": "C60", "title": "Random fields", "statement": "renf_randtest returns a field of an irreducible polynomial, created from a ball that isolates one of its real roots; it does not abort.", "quantifier": "all random choices, lengths at least 2, precisions >= 2", "why_tests_cant": "It is used to make test inputs; that all random choices are valid is not itself tested.", "anchors": ["libeantic/src/renf/randtest.c:22-94"]}
{"id": "C61", "title": "Copies of fields", "statement": "A field made by renf_init_set from any source, immutable or not, is mutable and behaves as the source did when it was mutable: every program on elements has the same results on both. Source and copy compare equal, also after any programs on either of them.", "quantifier": "all fields, marks, programs and states", "why_tests_cant": "A copy that keeps the mark or loses part of the state fails only in later calls that refine.", "anchors": ["libeantic/src/renf/init_set.c:16-28", "libeantic/srcxx/renf_class.cpp:68-80"]}
{"id": "C62", "title": "Polynomials and elements from realalg", "statement": "The text that pyeantic writes for the coefficients of a realalg polynomial or element is read by e-antic as this polynomial, respectively this element.", "quantifier": "all non-empty lists of rational coefficients, all variable names", "why_tests_cant": "Infinitely many coefficient lists; signs, zeros and fractions in every position.", "anchors": ["pyeantic/src/pyeantic/realalg_conversion.py:40-46", "pyeantic/src/pyeantic/realalg_conversion.py:76-96", "libeantic/src/fmpq_poly_extra/set_str_pretty.c"]}
{"id": "C63", "title": "Embeddings from realalg", "statement": "The ball that pyeantic writes for a realalg interval contains this interval.", "quantifier": "all intervals and precisions", "why_tests_cant": "Rounding errors of doubles show only for some intervals.", "anchors": ["pyeantic/src/pyeantic/realalg_conversion.py:48-54"]}
{"id": "C64", "title": "Fields to SageMath", "statement": "Converting a field to SageMath by parsing its printed form gives the same polynomial, the same name of the generator and the same root.", "quantifier": "all fields", "why_tests_cant": "The printed form depends on signs, fractions, degrees and the enclosure; regular expressions are tested on few shapes.", "anchors": ["pyeantic/src/pyeantic/real_embedded_number_field.py:452-476", "libeantic/src/renf/get_str.c:19-33"]}
{"id": "C65", "title": "Elements to SageMath, pickling, rational numbers", "statement": "Converting an element to the SageMath number field gives the vector of its value, converting back and pickling give the same element, for every element; _rational_ and _integer_ return the value exactly for rational numbers, respectively integers, and raise TypeError otherwise.", "quantifier": "all elements of all fields, all vectors of the number field", "why_tests_cant": "Zero, leading zeros and common denominators in all combinations.", "anchors": ["pyeantic/src/pyeantic/real_embedded_number_field.py:121-131", "pyeantic/src/pyeantic/real_embedded_number_field.py:746-773", "pyeantic/src/pyeantic/real_embedded_number_field.py:272-333", "libeantic/srcxx/renf_elem_class.cpp:535-557"]}
{"id": "C66", "title": "Construction, assignment and conversion of C++ elements", "statement": "Elements constructed from or assigned to machine integers of all types, rational numbers and vectors of coefficients have exactly the given value, vectors longer than the degree are refused by an assertion; conversion to another field keeps the value and throws exactly for irrational elements of other fields. No other object changes.", "quantifier": "all values of all types, all vectors, fields and states", "why_tests_cant": "Extreme integers of every type, vectors of every length.", "anchors": ["libeantic/srcxx/renf_elem_class.cpp:333-399", "libeantic/srcxx/renf_elem_class.cpp:439-557", "libeantic/srcxx/renf_elem_class.cpp:566-680"]}
{"id": "C67", "title": "Fields made with a callback", "statement": "Given an irreducible polynomial as text and a callback that writes enclosures of one of its real roots that shrink to the root, renf_class::make doubles the precision until an enclosure is accepted and returns the field of this polynomial and this root, with an enclosure that isolates the root and is as sharp as the precision reached; an enclosure with two roots is never accepted. No temporary is leaked.", "quantifier": "all irreducible polynomials of degree at least two, all their real roots, all callbacks, initial precisions and builds", "why_tests_cant": "Infinitely many callbacks; how often the precision is doubled depends on the distance of the roots.", "anchors": ["libeantic/srcxx/renf_class.cpp:124-165", "libeantic/src/fmpq_poly_extra/check_unique_real_root.c:29-114"]}
{"id": "C68", "title": "SageMath number fields as renf_class and back", "statement": "The renf_class that pyeantic makes for a SageMath number field given by an irreducible polynomial, a variable and a real root has this polynomial and is embedded at this root; converting it back to SageMath gives the same polynomial, variable and root.", "quantifier": "all irreducible polynomials of degree at least two, real roots and variable names", "why_tests_cant": "Infinitely many polynomials and roots, printed and parsed in both directions.", "anchors": ["pyeantic/src/pyeantic/real_embedded_number_field.py:570-576", "pyeantic/src/pyeantic/real_embedded_number_field.py:452-476", "libeantic/srcxx/renf_class.cpp:124-165"]}
{"id": "C69", "title": "Operators between C++ elements and numbers", "statement": "For renf_elem_class elements and integers of every machine type, mpz_class or mpq_class, the operators +, -, *, / with an element and a number in either order, or with two elements, return a new element with the value of the operation and change no operand; the relations with a number on the left agree with the order of the real numbers; unary + returns the same value and the conversion to bool tells whether the element is not zero. With a number on one side no exception is thrown.", "quantifier": "all fields, elements and numbers, all orders of the operands", "why_tests_cant": "Infinitely many values in the product of eleven operand types, four operators and six relations.", "anchors": ["libeantic/e-antic/renf_elem_class.hpp:60-71", "libeantic/srcxx/renf_elem_class.cpp:909-941", "libeantic/srcxx/renf_elem_class.cpp:1022-1360"]}
{"id": "C70", "title": "Temporaries are released on every path", "statement": "Whatever the arguments, a call of a function of libeantic releases every local object of FLINT, arb and malloc that it allocates exactly once, with the matching function, on every way out (return, exception), and uses none before it is allocated or after it is released; this includes fmpq_poly_check_unique_real_root and the constructor of renf_elem_class from a string.", "quantifier": "all functions of libeantic with local objects to release, all their executions (branches and loop counts), including those that do not end", "why_tests_cant": "Executions are infinitely many, and the early exits depend on rare numeric events; a leak has no effect on results, so tests do not see it without instrumentation.", "anchors": ["libeantic/src/fmpq_poly_extra/check_unique_real_root.c:29-114", "libeantic/srcxx/renf_elem_class.cpp:401-437", "libeantic/src/fmpz_poly_extra/isolate_real_roots.c:29-119"]}
{"id": "C71", "title": "Threads may use the elements of an immutable field", "statement": "After renf_set_immutable(nf, 1), several threads may call the functions of renf_elem.h on elements of the field at the same time: in every interleaving, every call that returns gives the result and every element the value that it has when the thread runs alone, and the field is not changed; a call that would have to refine the field ends the process instead. Elements that no thread assigns to may be shared, also as operands of sign, comparisons, floor and ceiling.", "quantifier": "all numbers of threads, all sequences of calls, all elements and fields, all interleavings of single reads and writes", "why_tests_cant": "The number of interleavings grows exponentially with the number of steps, and the harmful ones last a few machine instructions.", "anchors": ["libeantic/src/renf_elem/set_evaluation.c:17-33", "libeantic/src/renf_elem/sgn.c:16-49", "libeantic/src/renf/refine_embedding.c:20-64", "libeantic/src/renf/set_immutable.c:16-21"]}
{"id": "C72", "title": "Arithmetic and comparison of elements in SageMath", "statement": "An element of a RealEmbeddedNumberField, also one made from a C++ element, and its image in the SageMath number field are the same real number; +, -, *, / and negation return an element of the same parent whose value is the result of the operation on these real numbers and leave the operands alone; the six relations agree with the order of the real numbers; dividing by zero raises an exception.", "quantifier": "all number fields, all C++ elements given to a RealEmbeddedNumberField, all states of their enclosures", "why_tests_cant": "The doctests use sums and products of the generator of one field with small rational numbers; elements of another field and rational numbers of another field are accepted by the same constructor, and which conversions then work depends on both degrees.", "anchors": ["pyeantic/src/pyeantic/real_embedded_number_field.py:121-243", "pyeantic/src/pyeantic/real_embedded_number_field.py:770-773", "libeantic/e-antic/cppyy.hpp:29-44"]}
{"id": "C73", "title": "The field of a stream", "statement": "After K.set_pword(is), elements read with operator>> from is are elements of K with the value of the text; reading never uses a field or an element after its destruction, follows no null pointer and keeps the reference counts, so that fields still live exactly as long as they are used; when reading throws, no element changes.", "quantifier": "all programs of handles, elements and streams, all texts (as far as they can be read), all allocators", "why_tests_cant": "The tests set the field, keep a handle and read at once; what happens when the field dies first depends on whether and by what its memory is reused.", "anchors": ["libeantic/srcxx/renf_class.cpp:208-219", "libeantic/srcxx/renf_class.cpp:244-279", "libeantic/srcxx/renf_class.cpp:283-303"]}
{"id": "C74", "title": "The numbers printed for an element", "statement": "The text that operator<<, to_string and renf_elem_get_str_pretty write for an element gives, after the polynomial, a decimal number with its sign and seven right digits (an absolute error below 2^-1073 for numbers near the smallest double), or inf and -inf for elements beyond the largest double; operator<< leaves the number out exactly for integers. With EANTIC_STR_ARB it gives a decimal ball that contains the element. Printing does not change the element.", "quantifier": "all fields, elements, flags and states of the enclosures", "why_tests_cant": "the printed number depends on rounding to a double, twice for rational numbers, on refinement and on how sharp the enclosure is; tests compare a few texts", "anchors": ["libeantic/src/renf_elem/get_str_pretty.c:28-105", "libeantic/src/renf_elem/get_d.c:45-151", "libeantic/srcxx/renf_elem_class.cpp:857-871", "libeantic/srcxx/renf_class.cpp:235-242"]}
{"id": "C75", "title": "Arguments from Python", "statement": "pyeantic.eantic.renf_elem(K, v) makes the element of K with the value of v when v is a Python integer, an integer or rational number of gmpy2 or GMP, an object with a method __mpz__ or __mpq__ (as those of SageMath), a list or tuple of such numbers (coefficients), a text of the documented form, or an element (of K, or rational; others raise an exception); renf_elem(v) and renf_elem(None, v) make the rational number or a copy of the element, renf_elem() and renf_elem(K) zero; an element of realalg is converted to the element with its value. The operators + - * / with such a number on either side give the exact result or an exception. Other arguments and operands raise an exception. No other object changes.", "quantifier": "all fields, elements, numbers, texts, lists of coefficients and operands", "why_tests_cant": "the conversions dispatch on the types of arguments and pass numbers through decimal texts; tests try a few small numbers of each type", "anchors": ["pyeantic/src/pyeantic/cppyy_eantic.py:74-95", "pyeantic/src/pyeantic/cppyy_eantic.py:160-225", "pyeantic/src/pyeantic/realalg_conversion.py:75-96", "libeantic/e-antic/cppyy.hpp:29-36"]}
{"id": "C76", "title": "The subfield of the real numbers", "statement": "The values of the elements of a field are exactly the numbers of the smallest subfield of the real numbers that contains its root: every number of it can be made as an element and no other number occurs; each has exactly one vector of rational coefficients of the length that renf_degree returns. renf_equal tells whether two fields are the same subfield, as its documentation says.", "quantifier": "all fields, numbers and states of the enclosures", "why_tests_cant": "subfields are infinite sets; tests compare fields of a few roots", "anchors": ["libeantic/src/renf/degree.c:16-19", "libeantic/src/renf/equal.c:16-25", "libeantic/e-antic/renf.h:130-134", "libeantic/src/renf_elem/set_fmpq_poly.c:15-24"]}
{"id": "C77", "title": "Threads see a field whole", "statement": "When several threads share handles of a field, and the program itself has no data race on its handle variables, then the construction of the field happens before every use of it (also by a thread that gets it from make), every use happens before its destruction, and what make reads when it searches the registry happens before or after what other threads do to the fields in it, in the sense of the C++ memory model; searches and changes of the registry are ordered among each other.", "quantifier": "all interleavings of any number of threads, with every synchronisation that the program may use", "why_tests_cant": "Races of this kind show only when a processor or a compiler reorders memory accesses, on few architectures and rarely; tests run the interleavings that happen to occur on one machine.", "anchors": ["libeantic/srcxx/renf_class.cpp:281-303", "libeantic/srcxx/renf_class.cpp:94-112", "libeantic/srcxx/renf_class.cpp:47-58"]}
{"id": "C78", "title": "Polynomials are evaluated in place", "statement": "fmpz_poly_evaluate_arf and fmpq_poly_evaluate_arf give the value of the polynomial at the floating point number up to the rounding of 2n+1 operations relative to the sum of the absolute values of the terms, and exactly once the precision is large enough (for integer coefficients); fmpz_poly_evaluate_arb and fmpq_poly_evaluate_arb give a ball with the value at every number in the given ball. All of them do so whether or not the result is the same object as the argument, and change no object but the result.", "quantifier": "all polynomials with integer or rational coefficients, all arguments, precisions of at least two bits, and both distinct and equal objects", "why_tests_cant": "The error depends on every coefficient and on the precision, and cancellation that makes it visible needs particular arguments; a result that overwrites the argument goes wrong only from the second coefficient on.", "anchors": ["libeantic/src/fmpz_poly_extra/evaluate.c:16-75", "libeantic/src/fmpq_poly_extra/evaluate.c:17-64"]}
{"id": "C79", "title": "Reading an element in parentheses from any stream", "statement": "operator>> on a stream whose next character is an opening parenthesis stores what the string constructor makes of the text up to the closing parenthesis (and throws if the constructor throws), leaving the characters after it; it throws if the parenthesis is not closed or if the stream has failed before. Whatever characters the stream holds, the behaviour is defined.", "quantifier": "all texts and all characters that may follow, all streams, all fields", "why_tests_cant": "the texts and what surrounds them are unbounded; tests read a few well-formed ones, and using an unset character goes unnoticed", "anchors": ["libeantic/srcxx/renf_class.cpp:244-279", "libeantic/srcxx/renf_elem_class.cpp:401-437"]}
{"id": "C80", "title": "The condition number of an element is the number of bits lost", "statement": "The logarithm c of the condition number of an element says how many bits of precision are lost when the element is evaluated as a polynomial in the generator: if the generator is known with accuracy of p bits, the value is obtained with an accuracy of about p - c bits.", "quantifier": "all fields, elements, enclosures of the generator, precisions and ball arithmetics enclosing the exact results", "why_tests_cant": "Loss of precision depends on cancellation, which is arbitrarily bad only for elements no test would choose; the statement ranges over all elements and all points of a ball.", "anchors": ["libeantic/e-antic/renf_elem.h", "libeantic/src/renf_elem/relative_condition_number_2exp.c", "libeantic/src/fmpz_poly_extra/relative_condition_number_2exp.c", "libeantic/src/renf_elem/set_evaluation.c"]}
{"id": "C81", "title": "Setting an element refines it to the precision asked for", "statement": "renf_elem_set_nf_elem sets an element to the given element of the exact number field and then refines it to the given precision: the enclosure stored has about that many correct bits.", "quantifier": "all fields with any embedding, all elements and precisions, all ball arithmetics meeting the contracts", "why_tests_cant": "The enclosure of the field is not visible in the result; tests use fields that happen to be sharp enough, or never look at the enclosure.", "anchors": ["libeantic/e-antic/renf_elem.h:131-132", "libeantic/src/renf_elem/set_nf_elem.c:16-20", "libeantic/src/renf_elem/set_evaluation.c:17-33"]}
{"id": "C82", "title": "Programs on a field given sharply enough are exact, from its creation to the answers", "statement": "Take a minimal polynomial of degree at least two, a real root, and a ball around the root whose radius is below an explicit bound (in terms of the coefficients, the slope at the root and the root), with the root not too close to its ends for the precision. Then renf_init accepts the ball and makes the field of this root, and every program of arithmetic, comparisons, roundings, continued fractions and enclosure queries on elements, without division by zero, returns: the elements have the values of exact real arithmetic, the answers are right, a double asked for at the end is correctly rounded, and the field is still that of the root. Excepted are programs for which an enclosure gets so sharp that twice its bits overflow a machine word; generators so small that their power to the degree minus one is below 2^(2-prec); the floor, ceiling and quotient of 0 in degree three or more; and fmpq_div into another element than the divisor.", "quantifier": "all minimal polynomials of degree at least two, roots, balls below the bound, programs of every length, precisions, ball arithmetics that round like FLINT, debug and release builds", "why_tests_cant": "The enclosures reached depend on all earlier calls and on the rounding of the ball arithmetic; polynomials, programs and precisions are unbounded.", "anchors": ["libeantic/src/renf/init.c:19-41", "libeantic/src/renf/refine_embedding.c:20-64", "libeantic/src/fmpq_poly_extra/check_unique_real_root.c:29-114", "libeantic/src/renf_elem/sgn.c", "libeantic/src/renf_elem/cmp.c", "libeantic/src/renf_elem/fdiv.c", "libeantic/src/renf_elem/rounding_template.h", "libeantic/src/renf_elem/get_cfrac.c", "libeantic/src/renf_elem/get_arb.c", "libeantic/src/renf_elem/get_d.c"]}
{"id": "C83", "title": "Programs on rational fields are exact and need no refinement", "statement": "In a field of degree one every program of arithmetic, comparisons, roundings and continued fractions on elements, without division by zero and without the generator, get_arb and refinement, returns with the values of exact arithmetic and the right answers, whatever ball encloses the generator.", "quantifier": "all fields of degree one, enclosures of the generator, programs of every length, all correct ball arithmetics", "why_tests_cant": "Programs and enclosures are unbounded; tests use the field with an exact generator.", "anchors": ["libeantic/src/renf_elem/sgn.c:27-33", "libeantic/src/renf_elem/cmp.c:42-62", "libeantic/src/renf_elem/cmp_fmpq.c", "libeantic/src/renf_elem/rounding_template.h:50-60", "libeantic/src/renf_elem/fdiv.c:24-34", "libeantic/src/renf_elem/set_evaluation.c:17-33", "libeantic/src/renf_elem/get_cfrac.c"]}
{"id": "C84", "title": "Programs with the C++ classes return with the right answers", "statement": "A program with objects of renf_elem_class in several fields does arithmetic among objects and with machine integers, mpz and mpq, powers, copies, conversions, constructions, comparisons, floor divisions, roundings, signs and refinements of fields, and catches exceptions. If the fields of degree one have any right enclosure of their generator and those of higher degree one below an explicit radius, then the program returns, exactly the operations without a common field (or refused by LIBEANTIC_STRICT_BINOP) throw, leaving all objects as they were, every other operation leaves the values of exact arithmetic in the fields announced, and all answers are right. The program makes no division by zero, no power INT_MIN, no floor division of irrational elements of different fields and none of 0 in degree three or more; it refines, and asks for the generator of, fields of degree at least two only, whose generators are not too small for their precisions. Excepted are enclosures so sharp that twice their bits overflow a machine word.", "quantifier": "all families of fields, all programs of every length, all histories of enclosures, strict or lenient binary operators, debug and release builds, ball arithmetics that round like FLINT", "why_tests_cant": "Which enclosure a comparison meets depends on all earlier operations in the field, by any object; programs, fields and mixtures of operand types are unbounded.", "anchors": ["libeantic/srcxx/renf_elem_class.cpp:110-272", "libeantic/srcxx/renf_elem_class.cpp:281-700", "libeantic/srcxx/renf_elem_class.cpp:873-1360", "libeantic/srcxx/renf_class.cpp:72-78"]}
{"id": "C85", "title": "Absolute values of coefficients are taken in place or not", "statement": "fmpz_poly_abs(res, p) gives the polynomial whose coefficients are the absolute values of those of p, with the same length and a leading coefficient other than zero, whether res and p are the same object or not and whatever was allocated for and stored in res before; it touches no memory outside of what is allocated and no other polynomial, and the value of the result at |y| bounds the absolute value of p at y.", "quantifier": "all polynomials, all states of the memory of the result, aliased or not", "why_tests_cant": "No test calls the function; what the memory of the result holds before and how much is allocated is unbounded.", "anchors": ["libeantic/src/fmpz_poly_extra/abs.c:16-33"]}
{"id": "C86", "title": "Steps of Newton and of bisection may be done in place", "statement": "fmpz_poly_newton_step_arb(res, pol, der, a, prec) and fmpz_poly_bisection_step_arb(res, pol, a, prec), and the functions with an underscore, may be called with a as res, as the functions that evaluate polynomials may: they return what they return for different objects and then leave the same ball, and if they return 0 the enclosure of the root is not lost. If res is not a, then a and all other balls stay as they are.", "quantifier": "all polynomials and balls, all precisions, all assignments of objects to the parameters", "why_tests_cant": "The only caller in the library passes a new object; no test calls the exported functions.", "anchors": ["libeantic/src/fmpz_poly_extra/newton_step_arb.c:19-58", "libeantic/src/fmpz_poly_extra/bisection_step_arb.c:55-113"]}
{"id": "C87", "title": "Arrays of isolated roots are filled within their bounds and may be NULL", "statement": "fmpz_poly_isolate_real_roots sets the counters to the numbers of exact roots and intervals, whatever they were before, and writes these in increasing order to the first entries of exact_roots, c_array and k_array and nothing else. If exact_roots is NULL, or one of c_array and k_array, the counters are the same and the other arrays are as if it were there (nothing is written to only one of c_array and k_array). Arrays with as many entries as fmpz_poly_num_real_roots_upper_bound says are long enough. The function for the unit interval appends to the arrays and counters. The zero polynomial is refused.", "quantifier": "all polynomials whose isolation ends, in particular those without multiple real roots; all contents and lengths of arrays, all combinations of NULL", "why_tests_cant": "The negative half is computed for P(-x) and turned and reversed in place while the zero roots and the positive half are appended; numbers of roots of each kind, room and NULL pointers combine without bound.", "anchors": ["libeantic/src/fmpz_poly_extra/isolate_real_roots.c:29-224", "libeantic/src/fmpz_poly_extra/num_real_roots_vca.c:16-21"]}
{"id": "C88", "title": "Root isolation is called with arrays that are large enough", "statement": "renf_set_embeddings_fmpz_poly, renf_randtest and fmpz_poly_num_real_roots_vca read and write the arrays that they allocate only within bounds and never depend on uninitialized memory: they do what the same functions on lists of any length do (C08, C60, C06). The fields of all embeddings go to the first min(lim, n) entries of the array of the caller, in increasing order, and no other entry is touched; without room for these the call is out of bounds.", "quantifier": "all nonzero integer polynomials on which the isolation returns, all limits, arrays of the caller, contents of uninitialized memory, random choices", "why_tests_cant": "The array of the random fields has one entry per coefficient and not the bound of C07; a polynomial with more intervals than that is not found by running it, and writing one entry too far often goes unnoticed.", "anchors": ["libeantic/src/renf/set_embeddings_fmpz_poly.c:22-68", "libeantic/src/renf/randtest.c:40-94", "libeantic/src/fmpz_poly_extra/num_real_roots_vca.c:16-21"]}
{"id": "C89", "title": "Loops over coefficients stay within the arrays and the words", "statement": "The Descartes test, the root bound, the bound on the number of real roots and the substitution for an interval read and write only entries of the arrays given to them and of those that they allocate, leave other entries as they are, and their sums and quotients of words do not overflow; the assertion in the root bound holds, and WORD_MIN and WORD_MAX are returned only as marks. They return what the same functions on lists with unbounded integers return (C01, C05, C07, C11).", "quantifier": "all integer polynomials with at most 2^60 coefficients of at most 2^60 bits; for the Descartes test and the substitution all integer polynomials; arrays of any length", "why_tests_cant": "One entry read in front of or behind an array, or an overflow of a word for large coefficients, does not change the results of tests.", "anchors": ["libeantic/src/fmpz_poly_extra/descartes_bound_0_1.c:23-102", "libeantic/src/fmpz_poly_extra/positive_root_upper_bound_2exp.c:31-93", "libeantic/src/fmpz_poly_extra/descartes_bound.c:21-65", "libeantic/src/fmpz_poly_extra/scale_0_1_fmpq.c:16-60"]}
{"id": "C90", "title": "Isolation of real roots stays within the arrays and the words", "statement": "The isolation of real roots, on [0, 1) and on the whole line, computes with its exponents, counters and lengths without an overflow of a word: the exponents of the intervals, their shifts by the root bound, negative or not, and the subtraction when a subtree is left. Its assertions hold, it does not read p[0] of an empty polynomial, the test of Descartes never returns a value that makes it abort, and what it writes to the arrays is what C87 says. The zero polynomial aborts.", "quantifier": "all nonzero integer polynomials with at most 2^60 coefficients of at most 2^60 bits whose isolation takes at most 2^60 turns per sign; on [0, 1) coefficients of any size; arrays of any length, present or NULL", "why_tests_cant": "Exponents near the ends of a word are not reached by tests, and the read of p[0] of an empty polynomial would go unnoticed.", "anchors": ["libeantic/src/fmpz_poly_extra/isolate_real_roots.c:21-224"]}
{"id": "C91", "title": "Further loops stay within arrays and words; evaluation in place", "statement": "The test for a real root, the count after Sturm, the evaluation on a ball and the condition number read only entries of the arrays given to them; the counters do not overflow, the divisions by the content are exact with a nonzero divisor, and nothing is read behind the coefficients. They return what the same functions on lists with unbounded integers return (C09, C10, C80). The count after Sturm ends for every nonzero polynomial. Evaluation writes its result and no other ball, also in place (as in C78). The condition number of a nonempty polynomial is written exactly when it is a word.", "quantifier": "all integer polynomials, with at most 2^60 coefficients for the test and below 2^31 for the count (its counter is an int); all balls, places and precisions; arrays of any length; any arb arithmetic", "why_tests_cant": "Tests neither reach the ends of a word nor notice an entry read outside of an array; the in-place call is a choice of pointers.", "anchors": ["libeantic/src/fmpz_poly_extra/has_real_root.c:16-70", "libeantic/src/fmpz_poly_extra/num_real_roots_0_1_sturm.c:17-87", "libeantic/src/fmpz_poly_extra/evaluate.c:17-45", "libeantic/src/fmpz_poly_extra/relative_condition_number_2exp.c:16-60"]}
{"id": "C92", "title": "Reading a polynomial does not leave its strings", "statement": "Reading a polynomial from a string moves pointers over the name of the variable, the text and a copy of one term after the other. No read or write is outside of these arrays, the copy of a term with its terminator fits into the strlen(s) + 1 characters that are allocated, characters behind a terminator and the previous contents of the copy do not matter, and a term that is cut off by a temporary terminator is restored. The result is the one of the function on the characters before the terminators (C32), including its undefined cases.", "quantifier": "all names and texts without inner terminators, whatever is behind them in memory and whatever malloc finds; all results of FLINT for a zero denominator", "why_tests_cant": "A read or write of one character outside of a buffer is invisible to tests without a checker of memory, and texts that do it must be found first.", "anchors": ["libeantic/src/fmpq_poly_extra/set_str_pretty.c:24-204"]}
{"id": "C93", "title": "Continued fractions stay in the array of the caller", "statement": "Given an array with room for n >= 0 integers, renf_elem_get_cfrac writes only inside of it: it stores as many quotients as it returns, at most n, in the first places, and leaves the other places as they were; the stored quotients with the remainder are a continued fraction of the element, and fewer than n are stored only if the remainder is zero. For negative n nothing is stored and n itself is returned, or 0 for the element 0. With fewer places than there are quotients it writes outside of the array.", "quantifier": "all elements and fields, all n, all arrays and previous contents", "why_tests_cant": "How many quotients an element has is not known in advance, so an array is overrun only for some elements; that the remaining places are untouched must hold for every previous content.", "anchors": ["libeantic/src/renf_elem/get_cfrac.c:16-32"]}
{"id": "C94", "title": "Memory of fields and elements", "statement": "A client that initializes fields and elements before using them, does not initialize one that exists, and uses and releases elements only with a field of the same polynomial, be it a copy, causes no undefined behaviour and loses no memory; once it has released all fields and elements, every member that was initialized has been released exactly once. An element may outlive the field it was made with if it is released with a copy. Using or releasing what does not exist is undefined, elements work with a field of another polynomial exactly if antic represents its elements in the same way, and initializing a field again loses its three members.", "quantifier": "all sequences of calls of renf_init, renf_init_set, renf_clear, renf_elem_init, renf_elem_clear and operations, over any number of fields and elements", "why_tests_cant": "Leaks and releases with the wrong representation have no visible effect without a checker of memory, and the orders in which fields, copies and elements come and go are unbounded.", "anchors": ["libeantic/src/renf/init.c:19-44", "libeantic/src/renf/init_set.c:16-28", "libeantic/src/renf/clear.c:16-21", "libeantic/src/renf_elem/init.c:17-21", "libeantic/src/renf_elem/clear.c:17-21"]}
{"id": "C95", "title": "Precisions stay words", "statement": "Signs, comparisons, floors, ceilings, floors of quotients, balls, doubles and hashes of elements compute with precisions that are machine words: they add the condition number and double the precision until the answer is certain. No such sum or doubling overflows, so the answers are those of the functions with unbounded precisions (C24-C29).", "quantifier": "all fields, elements, enclosures and requested precisions", "why_tests_cant": "The overflow of a signed word is undefined behaviour that usually shows as a wrong precision only, and reaching it takes chosen precisions or condition numbers.", "anchors": ["libeantic/src/renf_elem/sgn.c:16-49", "libeantic/src/renf_elem/cmp.c:18-83", "libeantic/src/renf_elem/cmp_fmpq.c:19-86", "libeantic/src/renf_elem/fdiv.c:24-106", "libeantic/src/renf_elem/get_arb.c:16-46", "libeantic/src/renf_elem/rounding_template.h:42-117", "libeantic/src/renf_elem/get_d.c:22-151"]}
