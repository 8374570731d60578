{"id": "C01", "title": "Modular inverse is exact, total and overflow free", "statement": "For every prime p that fits the coefficient type and every value not divisible by p (negative values included), the 8/16/32-bit modular inverse terminates, performs no signed overflow, and returns the unique x in (0,p) with x*val = 1 mod p.", "quantifier": "all primes p below 2^8 / 2^16 / 2^32 and all representable values", "why_tests_cant": "The 32-bit space alone has about 2^31 primes times 2^64 values; the no-overflow argument is about intermediate cofactors, which no output check sees.", "anchors": ["src/neogb/tools.h:mod_p_inverse_8", "src/neogb/tools.h:mod_p_inverse_16", "src/neogb/tools.h:mod_p_inverse_32"]}
{"id": "C02", "title": "One CRT step gives the canonical lift", "statement": "Given m1 > 1 and a word-size m2 coprime to m1, residues r1 (any representative in (-m1, m1)) and r2 in [0,m2), the CRT step returns a number congruent to r1 mod m1 and to r2 mod m2, lying in [0,m1*m2) in unsigned mode and of absolute value at most m1*m2/2 in signed mode.", "quantifier": "all coprime moduli and all residues", "why_tests_cant": "m1 is an unbounded integer.", "anchors": ["src/crt/mpz_CRT_ui.c:_mpz_CRT_ui_precomp", "src/crt/mpz_CRT_ui.c:mpz_CRT_ui"]}
{"id": "C03", "title": "Incremental CRT over any list of primes recovers the integer", "statement": "Starting from the first residue, folding the CRT step over any list of pairwise coprime word-size primes with the residues of an integer x returns x itself as soon as 2|x| is below the product (signed mode), or x mod the product (unsigned mode).", "quantifier": "all integers x, all finite sequences of distinct primes", "why_tests_cant": "Unbounded number of primes and unbounded integers.", "anchors": ["src/crt/mpz_CRT_ui.c:mpz_CRT_ui", "src/msolve/lifting-gb.c:incremental_dlift_crt_full", "src/msolve/lifting.c:crt_lift_dense_rows", "src/msolve/msolve.c:crt_lift_mpz_upoly"]}
{"id": "C04", "title": "Rational reconstruction is sound", "statement": "Whenever rational reconstruction of a residue u modulo m reports success with (n,d), then n = d*u mod m, |n| <= N, 0 < d <= D and gcd(n,d) = 1, and the procedure always terminates.", "quantifier": "all residues, all moduli, all bounds N and D", "why_tests_cant": "Unbounded integers; the loop length depends on the continued fraction.", "anchors": ["src/crt/mpq_reconstruct.c:ratrecon", "src/crt/mpq_reconstruct.c:mpq_reconstruct_mpz"]}
{"id": "C05", "title": "Rational reconstruction is complete and unique", "statement": "If some fraction n/d with |n| <= N, 0 < d <= D, 2*N*D < m, gcd(n,d)=1 and n = d*u mod m exists, then reconstruction succeeds and returns exactly that fraction.", "quantifier": "all fractions within the bounds and all moduli", "why_tests_cant": "Unbounded integers; failure would show only for rare residues.", "anchors": ["src/crt/mpq_reconstruct.c:ratrecon", "src/crt/mpq_reconstruct.c:mpq_reconstruct_mpz"]}
{"id": "C06", "title": "Reconstruction with a guessed denominator, then normalisation, still yields a representative of the residue", "statement": "When reconstruction with a denominator guess g succeeds, the returned (num, den) satisfies num = den*u mod m with gcd(num,den) = 1 after normalisation, and the next guess is its denominator.", "quantifier": "all residues, moduli, guesses coprime to m", "why_tests_cant": "Unbounded integers.", "anchors": ["src/crt/mpq_reconstruct.c:ratreconwden", "src/msolve/lifting-gb.c:reconstructcoeff"]}
{"id": "C07", "title": "Vector reconstruction returns one common denominator", "statement": "When the reconstruction of a coefficient vector succeeds, the numerators over the common denominator represent every residue of the vector, whatever the start index remembered from earlier failures; on failure the remembered index stays inside the vector.", "quantifier": "all vectors, all moduli, all histories of the remembered index", "why_tests_cant": "The start index depends on the whole history of earlier attempts.", "anchors": ["src/msolve/msolve.c:rational_reconstruction_mpz_ptr"]}
{"id": "C08", "title": "Prime generation", "statement": "For 23 <= n with a prime between n and 65531^2 the next-prime routine returns the least prime strictly larger than n; the primality test is exact for 24 <= n < 65531^2; in every run of the multi-modular loop all selected primes are admissible and none is reused before every admissible prime of the window has been used.", "quantifier": "all 32-bit n in the stated range, all initial primes, all luck predicates, all run lengths", "why_tests_cant": "2^31 inputs with unbounded gaps; the wrap-around of i*i appears only near 2^32.", "anchors": ["src/msolve/primes.c:is_prime", "src/msolve/primes.c:next_prime"]}
{"id": "C09", "title": "Modular check of a lifted rational is exact", "statement": "For a prime not dividing the denominator, the check accepts a lifted fraction exactly when its image modulo the prime equals the modular coefficient.", "quantifier": "all integers num, den, all primes below 2^31, all residues", "why_tests_cant": "Unbounded integers.", "anchors": ["src/msolve/lifting-gb.c:verif_coef", "src/msolve/lifting.c:check_lifted_coeff", "src/msolve/msolve.c:check_unit_mpz_nmod_poly"]}
{"id": "C10", "title": "Monomial comparison is a total order compatible with multiplication", "statement": "The degree reverse lexicographic, lexicographic and block elimination comparisons used by the engine are total orders on monomials (antisymmetric, transitive, zero only on equal monomials), have 1 as least element, and are preserved by multiplication with any monomial.", "quantifier": "all monomials in any number of variables and any block split", "why_tests_cant": "Infinitely many monomials; transitivity ranges over triples.", "anchors": ["src/neogb/order.c:monomial_cmp_drl", "src/neogb/order.c:monomial_cmp_lex", "src/neogb/order.c:monomial_cmp_be"]}
{"id": "C11", "title": "Monomial orders are well founded", "statement": "There is no infinite strictly decreasing sequence of monomials for any of the three orders, so every reduction stops.", "quantifier": "all sequences of monomials", "why_tests_cant": "A statement about infinite sequences.", "anchors": ["src/neogb/order.c"]}
{"id": "C12", "title": "Block order eliminates", "statement": "With an elimination block of the first k variables, a polynomial whose leading monomial contains no variable of the block contains none of them in any term.", "quantifier": "all polynomials, all block lengths", "why_tests_cant": "Infinitely many polynomials.", "anchors": ["src/neogb/order.c:monomial_cmp_be"]}
{"id": "C13", "title": "Monomials are interned: equal index iff equal exponents, over any history", "statement": "For any sequence of insertions and table enlargements, inserting an exponent vector returns the same index as an earlier insertion exactly when the exponent vectors are equal, returned indices stay valid and keep their exponents, and the probe loop always finds a slot.", "quantifier": "all finite sequences of operations, all exponent vectors, all hash seeds", "why_tests_cant": "Collisions and enlargement points depend on the whole history.", "anchors": ["src/neogb/hash.c:insert_in_hash_table", "src/neogb/hash.c:enlarge_hash_table"]}
{"id": "C14", "title": "Hash of a product is the sum of hashes", "statement": "Inserting the product of two monomials through the shortcut that adds the stored hash values finds the same entry as inserting the multiplied exponent vector directly, as long as exponents do not exceed 16 bits.", "quantifier": "all pairs of monomials and table states", "why_tests_cant": "History dependent.", "anchors": ["src/neogb/hash.c:insert_multiplied_poly_in_hash_table"]}
{"id": "C15", "title": "Divisor masks never reject a true divisor", "statement": "For any divmask configuration computed from any set of monomials, if monomial b divides a, the mask filter lets the pair through; the full divisibility test answers true exactly for divisibility.", "quantifier": "all monomials, all mask configurations", "why_tests_cant": "A wrong mask loses divisors only for rare exponent patterns.", "anchors": ["src/neogb/hash.c:calculate_divmask", "src/neogb/hash.c:generate_short_divmask", "src/neogb/hash.c:check_monomial_division"]}
{"id": "C16", "title": "lcm and coprimality are exact", "statement": "The lcm routine returns the least common multiple with a consistent degree field for both exponent layouts, and the coprimality test is true exactly when the two monomials share no variable.", "quantifier": "all monomials, both layouts", "why_tests_cant": "Infinitely many monomials.", "anchors": ["src/neogb/hash.c:get_lcm", "src/neogb/hash.c:prime_monomials"]}
{"id": "C17", "title": "Exponent layout round trip", "statement": "Importing a user exponent vector (with or without an elimination block) and exporting it gives back the same vector, and the degree fields equal the block degrees, for exponents whose degree fits 16 bits.", "quantifier": "all exponent vectors and block lengths", "why_tests_cant": "Infinitely many vectors; wrap-around beyond 16 bits.", "anchors": ["src/neogb/io.c:set_exponent_vector", "src/neogb/io.c:export_data"]}
{"id": "C18", "title": "Row reduction never overflows", "statement": "In every finite-field row reduction kernel every 64-bit operation stays in range, every array access is inside its array, and the resulting coefficients are canonical residues, for every prime of the size class, every row and every set of pivots of any length; for the accumulating 8, 16 and 17 bit kernels as long as (columns+1)*p^2 <= 2^63 (always true below 2^27 columns), without any limit for the 31 bit kernel. Beyond that bound the 17 bit kernel does overflow.", "quantifier": "all primes of the size class, all matrices within the stated column bound", "why_tests_cant": "Worst-case accumulation needs adversarial rows that tests do not build.", "anchors": ["src/neogb/la_ff_32.c:reduce_dense_row_by_known_pivots_sparse_17_bit", "src/neogb/la_ff_32.c:reduce_dense_row_by_known_pivots_sparse_31_bit", "src/neogb/la_ff_16.c", "src/neogb/la_ff_8.c"]}
{"id": "C19", "title": "Row reduction only subtracts known pivot rows", "statement": "The reduced row differs from the input row by a combination of the known pivot rows modulo p, is zero in every pivot column, and its new leading column has no pivot yet.", "quantifier": "all rows and pivot sets", "why_tests_cant": "All matrices.", "anchors": ["src/neogb/la_ff_32.c:reduce_dense_row_by_known_pivots_sparse_17_bit", "src/neogb/la_ff_32.c:reduce_dense_row_by_known_pivots_sparse_31_bit"]}
{"id": "C20", "title": "Parallel echelon form loses no row, for every schedule", "statement": "For any number of threads and any interleaving of reductions and compare-and-swap pivot insertions, when all threads finish, the pivot rows span exactly the row space of the input rows and there is at most one pivot per column.", "quantifier": "all schedules, all thread counts, all matrices", "why_tests_cant": "Schedules cannot be enumerated by tests.", "anchors": ["src/neogb/la_ff_32.c:exact_sparse_reduced_echelon_form_ff_32"]}
{"id": "C21", "title": "Parallel echelon form is deterministic", "statement": "After interreduction the set of new rows is the same for every schedule and thread count.", "quantifier": "all pairs of schedules", "why_tests_cant": "Schedules cannot be enumerated by tests.", "anchors": ["src/neogb/la_ff_32.c:exact_sparse_reduced_echelon_form_ff_32"]}
{"id": "C22", "title": "Pair update discards only useless pairs", "statement": "Whenever the pair update of a new basis element discards a critical pair, the S-polynomial of the discarded pair has a standard representation as soon as the kept pairs have one; no pair needed for the Buchberger criterion is lost, over any sequence of updates.", "quantifier": "all sequences of basis elements", "why_tests_cant": "History dependent and over all polynomials.", "anchors": ["src/neogb/update.c:insert_and_update_spairs", "src/neogb/update.c:update_basis_f4"]}
{"id": "C23", "title": "The computed basis is the reduced Groebner basis of the input ideal", "statement": "For every system over a prime field the main loop ends (unless an exponent or the matrix outgrows its storage, which is detected as a limit in the model). When it ends normally, every input generator lies in the ideal of the output and conversely, and every element of the ideal has its leading monomial divisible by the leading monomial of an output element; the output is minimal, monic, sorted, and reduced when reduction is requested. The reduced output depends only on the ideal, the monomial ordering and the prime: not on the generators, the number of selected pairs, ties in sorting, the kernel, the number of threads or their schedule.", "quantifier": "all inputs over a prime field, all orderings, kernels, pair selections, sort ties and thread schedules", "why_tests_cant": "All polynomial systems and all schedules; termination and canonicity are not testable.", "anchors": ["src/neogb/f4.c:core_f4", "src/neogb/update.c:update_basis_f4", "src/neogb/symbol.c:symbolic_preprocessing"]}
{"id": "C24", "title": "The staircase enumeration is exact", "statement": "For any leading monomials with finitely many standard monomials (monomials divisible by none of them), the monomial basis routine returns exactly the standard monomials, strictly increasing for the degree reverse lexicographic order (hence without repetition and in nondecreasing degree), and NULL exactly when there are none. The degree-bounded variants return exactly the standard monomials up to the bound.", "quantifier": "all finite sets of leading monomials, any number of variables, as long as number of variables times number of standard monomials is below 2^31", "why_tests_cant": "Unbounded degree and number of variables; the index bookkeeping has many boundary cases.", "anchors": ["src/msolve/hilbert.c:monomial_basis", "src/msolve/hilbert.c:generate_new_elts_basis", "src/msolve/hilbert.c:update_indices"]}
{"id": "C25", "title": "The staircase enumeration stays in its buffer", "statement": "The work buffer of the staircase enumeration, whose size is computed from the index table, is large enough for every write, no read is invalid and no 32-bit quantity overflows, provided number of variables times number of standard monomials is below 2^31.", "quantifier": "all finite sets of leading monomials", "why_tests_cant": "Overflow would appear only for special staircases.", "anchors": ["src/msolve/hilbert.c:monomial_basis", "src/msolve/hilbert.c:sum"]}
{"id": "C26", "title": "Zero-dimensionality test", "statement": "On leading monomials of a minimal basis not containing 1, the dimension-zero test answers yes exactly when only finitely many monomials are outside the leading ideal.", "quantifier": "all minimal sets of leading monomials", "why_tests_cant": "Finiteness is a statement about infinitely many monomials.", "anchors": ["src/msolve/hilbert.c:has_dimension_zero", "src/msolve/hilbert.c:is_pure_power"]}
{"id": "C27", "title": "Taylor shift", "statement": "Both the quadratic and the divide-and-conquer Taylor shift replace P(x) by P(x+1).", "quantifier": "all integer polynomials, all block sizes and thread counts", "why_tests_cant": "All polynomials of all degrees.", "anchors": ["src/usolve/taylor_shift.c:taylorshift1_naive", "src/usolve/taylor_shift.c:taylorshift1_dac"]}
{"id": "C28", "title": "Truncated Descartes test is sound", "statement": "When the truncated sign variation count reports a definite number below the cut-off, it equals the number of sign variations of the exactly shifted polynomial.", "quantifier": "all integer polynomials", "why_tests_cant": "Truncation errors matter only for adversarial coefficients.", "anchors": ["src/usolve/descartes.c:descartes_truncate", "src/usolve/utils.c:USOLVEmpz_poly_sgn_variations_coeffs_bsize"]}
{"id": "C29", "title": "Descartes count bounds real roots", "statement": "For any polynomial, the number of distinct positive real roots is at most the number of sign variations; the count on an interval 0 means no root in it, 1 means exactly one root.", "quantifier": "all real polynomials", "why_tests_cant": "All polynomials; roots are real numbers.", "anchors": ["src/usolve/descartes.c:descartes", "src/usolve/utils.c"]}
{"id": "C30", "title": "Root bound", "statement": "The power of two 2^b found from the coefficients is strictly larger than every real root, and from 2^b on the polynomial has the sign of its leading coefficient. If all coefficients have the sign of the leading one the answer is -1 and there is no positive root. (The answer -1 alone does not say that there is none.)", "quantifier": "all integer polynomials with nonzero leading coefficient", "why_tests_cant": "All polynomials.", "anchors": ["src/usolve/usolve.c:bound_roots"]}
{"id": "C31", "title": "Real root isolation is complete and correct", "statement": "For every integer polynomial without multiple real root the isolation ends without error; the records returned are in increasing order and pairwise disjoint, each contains exactly one real root, exact entries are roots, every real root is in one of them, and a root at an end of an interval has an exact record of its own.", "quantifier": "all squarefree integer polynomials", "why_tests_cant": "All polynomials of any degree and coefficient size.", "anchors": ["src/usolve/usolve.c:bisection_rec", "src/usolve/usolve.c:bisection_Uspensky", "src/usolve/usolve.c:real_roots"]}
{"id": "C32", "title": "Root refinement keeps the root", "statement": "Refining an interval of opposite signs at its ends to any precision ends and returns an interval inside the first one of width at most 2^-prec still with opposite signs at its ends, or flags a root inside as exact with its exact value and divides the polynomial by it. Isolation followed by refinement, for a polynomial with simple roots, ends and returns one record per root, contained in the isolating record, containing its root, exact or of width at most 2^-prec.", "quantifier": "all polynomials, all isolating intervals, all precisions, whatever the interpolation guesses", "why_tests_cant": "Guess sequence and precision are unbounded.", "anchors": ["src/usolve/refine.c:refine_QIR_positive_root", "src/usolve/refine.c:refine_root_by_N_positive_k"]}
{"id": "C33", "title": "Dyadic evaluation is exact and interval evaluation encloses", "statement": "Evaluating an integer polynomial at c/2^k returns the exact scaled value, hence the exact sign. The scalar product with lower and upper bounds for the powers of x encloses the value at x. Evaluating on an interval [a/2^k,b/2^k] whose ends are on the same side of zero never fails and returns bounds enclosing the value at every point of the interval as long as no intermediate interval of the Horner scheme has bounds of opposite signs; otherwise the bounds, and even the reported constant sign, can be wrong.", "quantifier": "all polynomials, all dyadic points and intervals", "why_tests_cant": "All real points of the interval.", "anchors": ["src/usolve/evaluate.c:mpz_poly_eval_2exp_naive", "src/usolve/evaluate.c:mpz_poly_eval_interval", "src/usolve/evaluate.c:mpz_scalar_product_interval"]}
{"id": "C34", "title": "Printed boxes contain the solutions", "statement": "For a rational parametrisation (positive coefficients c_i, numerators of smaller degree than the eliminating polynomial) and a root r of the eliminating polynomial, exact or isolated by an interval with opposite signs at its ends and positive exponent, with w(r) nonzero: the boxes are computed, and they contain the point with coordinates -v_i(r)/(c_i*w(r)) whenever the evaluation of w on the final interval has no partial bounds of opposite signs. Composed with isolation and refinement: one list of boxes per real root, in increasing order. Without these conditions the boxes can miss the solution: a concrete cubic whose box excludes the coordinate, two close roots printed as the same point, and an interval of width one on which the computation never ends.", "quantifier": "all parametrisations, roots and precisions", "why_tests_cant": "The true coordinates are irrational; tests only compare approximations.", "anchors": ["src/msolve/msolve.c:lazy_single_real_root_param", "src/msolve/msolve.c:generate_table_values_full", "src/msolve/msolve.c:newvalue_denom", "src/msolve/msolve.c:single_exact_real_root_param"]}
{"id": "C35", "title": "Normalising printed dyadics keeps their values", "statement": "Removing common powers of two from the bounds of the output boxes (nonnegative exponents) does not change any value and leaves a zero bound, an odd numerator or a zero exponent.", "quantifier": "all boxes", "why_tests_cant": "Unbounded integers.", "anchors": ["src/msolve/msolve.c:normalize_points"]}
{"id": "C36", "title": "Input files are read as they are written", "statement": "A file in the documented format (names, characteristic, one polynomial per written line, terms with optional sign, coefficient, '*' and '^') is read without an access out of bounds, and the stored names, characteristic, exponents and coefficients are those written: exact fractions in characteristic zero, representatives below 2^31 modulo p. Excluded, with a counterexample each: polynomials over several lines, several polynomials on a line, fractions or explicit zero coefficients modulo p, repeated variables in a term, a leading '+', a first coefficient of 2^31 or more modulo p.", "quantifier": "all lists of distinct variable names, characteristics below 2^31, polynomials and texts of the documented syntax with blanks anywhere", "why_tests_cant": "Infinitely many strings; the parser never reports a malformed term, it stores something else.", "anchors": ["src/msolve/iofiles.c:get_data_from_file", "src/msolve/iofiles.c:get_coefficient_ff_and_term_from_line", "src/msolve/iofiles.c:get_coefficient_mpz_and_term_from_line", "src/msolve/iofiles.c:store_exponent", "src/msolve/iofiles.c:get_term", "src/msolve/iofiles.c:get_variable_name"]}
{"id": "C37", "title": "Imported coefficients are the residues of the given ones", "statement": "Importing 32-bit coefficients into the finite-field engine stores, for every characteristic below 2^31 and every coefficient not below minus the characteristic, the canonical residue; if no coefficient is zero every generator is stored, in order, with exactly its terms; over the rationals every generator is stored as a nonzero integer multiple of itself. Coefficients below minus the characteristic are stored as a wrong residue unless the characteristic divides 2^32, and a generator with a zero coefficient that stands before a valid one makes the engine lose a valid generator.", "quantifier": "all 32-bit coefficients and characteristics", "why_tests_cant": "All coefficient/characteristic pairs.", "anchors": ["src/neogb/io.c:import_input_data", "src/neogb/io.c:validate_input_data"]}
{"id": "C38", "title": "Kernel selection matches the characteristic", "statement": "For every characteristic below 2^31 the field-size class chosen has a coefficient type that holds every residue, and it is the smallest such class; characteristics from 2^31 on that pass the validation select the 8-bit class, which does not hold the residues, and larger ones lead to an invalid memory access instead of an error.", "quantifier": "all characteristics accepted by the input validation", "why_tests_cant": "Boundary values only.", "anchors": ["src/neogb/io.c:set_ff_bits", "src/neogb/io.c:check_ff_bits"]}
{"id": "C39", "title": "Trying variable orders is reversible", "statement": "While no linear form has been added, after any number of attempts the system being solved is the input, or the input with the last variable exchanged with one other variable in names and exponents; every other variable is tried once and then the input is back in place; the coordinates reported for the real solutions are those of the input, one for each solution.", "quantifier": "all systems, all sequences of attempts, all commutative rings of coordinates", "why_tests_cant": "History dependent.", "anchors": ["src/msolve/msolve.c:change_variable_order_in_input_system", "src/msolve/msolve.c:undo_variable_order_change"]}
{"id": "C40", "title": "Adding a linear form extends the system without changing it", "statement": "Once a linear form has been added, the system is the input with exponent 0 in one new last variable, plus exactly one generator of degree one in which the new variable has a nonzero coefficient; its coefficients are the documented powers k^i; the integers in it stay representable while (n+1)^i < 2^31, and are undefined after enough attempts.", "quantifier": "all systems, all sequences of attempts", "why_tests_cant": "All systems.", "anchors": ["src/msolve/msolve.c:add_linear_form_to_input_system"]}
{"id": "C41", "title": "Minimal basis extraction", "statement": "Removing redundant leading monomials leaves a set with no element dividing another that generates the same monomial ideal.", "quantifier": "all sequences of leading monomials", "why_tests_cant": "History dependent.", "anchors": ["src/neogb/update.c:update_lm", "src/neogb/f4.c:final_remove_redundant_elements"]}
{"id": "C42", "title": "Symbolic preprocessing is closed", "statement": "After symbolic preprocessing every monomial occurring in the matrix that is divisible by a leading monomial of the basis is the leading monomial of exactly one reducer row, and each reducer row is a monomial multiple of a basis element.", "quantifier": "all states of the main loop, all inputs and selections", "why_tests_cant": "Closure over a growing worklist.", "anchors": ["src/neogb/symbol.c:symbolic_preprocessing", "src/neogb/symbol.c:find_multiplied_reducer"]}
{"id": "C43", "title": "Learning trace keeps every reducer that was used", "statement": "The stored trace of a round keeps exactly the rows that gave a new basis element and exactly the reducers used by such a row, in the old order, and the bit arrays still point to the same reducers after compression. A run that records a trace returns the same basis as an ordinary run, and the recorded trace applied to the system it was learned from is accepted and returns that basis, for every thread schedule.", "quantifier": "all rounds, systems, primes, monomial orders and thread schedules", "why_tests_cant": "The trace depends on the interleaving of the threads and on which reductions happen to vanish; a lost reducer only shows for some system and schedule.", "anchors": ["src/neogb/tools.c:construct_trace", "src/neogb/la_ff_32.c", "src/neogb/symbol.c:generate_matrix_from_trace", "src/neogb/f4.c:core_f4"]}
{"id": "C44", "title": "Copying a basis modulo a prime is a ring homomorphism image", "statement": "Reducing the integer basis modulo a word prime stores for every coefficient the canonical nonnegative residue, for negative coefficients too.", "quantifier": "all integers and word primes", "why_tests_cant": "Unbounded integers.", "anchors": ["src/neogb/basis.c:copy_basis_mod_p", "src/msolve/msolve.c:reduce_generators"]}
{"id": "C45", "title": "Content removal", "statement": "Removing the content of integer polynomials with nonzero leading coefficient yields primitive polynomials with positive leading coefficient of which the given ones are nonzero multiples; no access outside the rows happens for any length.", "quantifier": "all integer coefficient vectors", "why_tests_cant": "Unbounded integers.", "anchors": ["src/neogb/basis.c:remove_content_of_initial_basis"]}
{"id": "C46", "title": "Normalisation makes rows monic without leaving the line", "statement": "Normalising a row over a prime field multiplies it by the inverse of its leading coefficient: leading coefficient 1, other coefficients canonical, same span; loop unrolling handles every length.", "quantifier": "all rows of every length, all primes", "why_tests_cant": "All lengths modulo the unrolling factor with all coefficients.", "anchors": ["src/neogb/la_ff_32.c:normalize_sparse_matrix_row_ff_32", "src/neogb/basis.c:normalize_initial_basis_ff_32"]}
{"id": "C47", "title": "The minimal polynomial of a recurrent sequence is recovered from 2D terms", "statement": "If an infinite sequence modulo a prime satisfies some linear recurrence of order D, then from its first n >= 2D terms the Berlekamp-Massey computation finishes without dividing by zero and returns the monic minimal polynomial of the whole sequence: it annihilates every term, it divides every annihilating polynomial, and it is the only monic polynomial doing so. The result is the same when the terms arrive in several batches, and whether the short loop or the half-gcd branch is taken.", "quantifier": "all primes, all recurrent sequences, all orders D, all n >= 2D, all ways of cutting the terms into batches", "why_tests_cant": "The claim is about all later terms of an infinite sequence and all annihilating polynomials.", "anchors": ["src/fglm/berlekamp_massey.c:nmod_berlekamp_massey_reduce_modif", "src/fglm/berlekamp_massey.c:nmod_em_gcd", "src/fglm/fglm_core.c:compute_elim_poly"]}
{"id": "C48", "title": "Duplicating trace data for threads preserves the original", "statement": "Copying the learned trace for the worker threads gives every thread a copy with equal sizes and equal arrays in memory of its own: all arrays of the copies are new and no two copies share one, and the arrays of the original keep their contents, except the short divisor masks of the leading monomials. Those masks are lost: after one copy the masks of the original and of the copies are zero; a zero mask makes the division test slower, its answer is unchanged. The arrays of lead monomials, matrix rows and linear variables are copied in the same way.", "quantifier": "all heaps, all traces with arrays of the recorded lengths, all numbers of threads", "why_tests_cant": "Aliasing of heap data.", "anchors": ["src/msolve/duplicate.c:duplicate_tracer"]}
{"id": "C49", "title": "Sorting comparators are consistent", "statement": "Each comparator handed to the sorting routine for terms, pairs and rows is a strict weak order, as the sorting routine requires.", "quantifier": "all triples of elements", "why_tests_cant": "Triples of unbounded data.", "anchors": ["src/neogb/order.c:spair_cmp_update", "src/neogb/order.c:matrix_row_cmp_decreasing", "src/neogb/order.c:initial_input_cmp_drl"]}
{"id": "C50", "title": "Trace application detects every bad prime it claims to detect", "statement": "Let a trace be learned modulo one prime and applied modulo another to generators with the same leading monomials. The application ends without undefined behaviour; if it ends with success, every round has produced exactly the number of new elements and the leading monomials of the learning phase, and the result consists of monic, mutually reduced elements of the new ideal in increasing order with exactly the leading monomials of the learned basis. It is the reduced Groebner basis returned by an ordinary run exactly when the learned leading monomials divide all leading monomials of the new ideal; otherwise (trace learned at a bad prime) a wrong basis can be accepted.", "quantifier": "all pairs of primes, all systems and all traces produced by the learning phase", "why_tests_cant": "All primes: bad primes are rare and the counts per round must agree in every round.", "anchors": ["src/neogb/f4.c:core_f4", "src/neogb/modular.c:f4_trace_application_phase", "src/neogb/symbol.c:generate_matrix_from_trace", "src/neogb/la_ff_32.c"]}
{"id": "C51", "title": "Input polynomials are stored with decreasing terms", "statement": "For the degree reverse lexicographic order and block orders every imported polynomial without repeated monomials has strictly decreasing monomials, so that its first term is its leading term; for the lexicographic order the monomials increase, so that the first term is the smallest one.", "quantifier": "all input polynomials, variables counts and orders", "why_tests_cant": "All polynomials of all lengths.", "anchors": ["src/neogb/io.c:sort_terms_ff_32", "src/neogb/order.c:initial_gens_cmp_drl", "src/neogb/order.c:initial_gens_cmp_lex"]}
{"id": "C52", "title": "Sorting the terms keeps coefficients and monomials together", "statement": "For every permutation delivered by the sorting routine, the in-place rearrangement of a polynomial terminates and moves every coefficient together with its monomial to its place, both for machine coefficients (copied) and for big integers (exchanged).", "quantifier": "all permutations of all lengths", "why_tests_cant": "n! permutations for every length n.", "anchors": ["src/neogb/io.c:sort_terms_ff_8", "src/neogb/io.c:sort_terms_qq"]}
{"id": "C53", "title": "Vectorised kernels equal the scalar kernel", "statement": "For every row length, multiplier and dense row, the AVX2, AVX512 and NEON branches of the row reduction kernels leave the dense row in the same state as the portable branch.", "quantifier": "all rows of all lengths, all dense rows within the accumulator bound, all lane groupings covering a block", "why_tests_cant": "A test runs on one machine with one instruction set; tails depend on the row length modulo the lane count.", "anchors": ["src/neogb/la_ff_32.c:reduce_dense_row_by_known_pivots_sparse_31_bit", "src/neogb/la_ff_16.c", "src/neogb/la_ff_8.c"]}
{"id": "C55", "title": "The table of linear forms holds the linear elements of the basis", "statement": "For every reduced Groebner basis (degree reverse lexicographic, modulo any p) the table of linear forms prepared for the parametrisation has exactly one row for every variable leading an element of degree one, in increasing order of the variables, each row being the coefficients of such an element of the ideal, and the flags tell these variables from the others. For bases that are not reduced this is false: an element with all its terms does not advance the row counter and the next form overwrites it.", "quantifier": "all numbers of variables, all moduli, all reduced bases", "why_tests_cant": "The row counter defect only shows with dense linear forms combined with others; all combinations cannot be tested.", "anchors": ["src/msolve/linear.c:check_and_set_linear_poly_32"]}
{"id": "C56", "title": "The linear form shown is the one used", "statement": "The linear form printed with the rational parametrisation is proportional to the linear form in the solved system, if the last form added is random or none was; it is the stale random form when a power form was added after a random one.", "quantifier": "all systems and sequences of attempts", "why_tests_cant": "Depends on the history of failed attempts, on random numbers and on the time.", "anchors": ["src/msolve/msolve.c:mpz_param_out_str", "src/msolve/msolve.c:add_random_linear_form_to_input_system", "src/msolve/msolve.c:add_linear_form_to_input_system"]}
{"id": "C57", "title": "Products by the multiplication matrix are exact", "statement": "For every modulus below 1518500213, every sparse multiplication matrix and every reduced vector, the portable and the AVX2 kernel both return the exact product modulo p, with no 64-bit overflow that matters, and the sequence and the columns stored for the later steps are the coordinates of the powers of the matrix applied to the vector, as long as the dense part has at most 2^32 entries; beyond that the 32-bit address reads another row.", "quantifier": "all moduli, all sizes, all matrices, all vectors, both kernels", "why_tests_cant": "Overflow depends on the size of the matrix and the modulus; tests are run with one instruction set on small systems.", "anchors": ["src/fglm/linalg-fglm.c", "src/fglm/fglm_core.c:sparse_mat_fglm_mult_vec", "src/fglm/fglm_core.c:generate_sequence_verif"]}
{"id": "C58", "title": "The parametrisation modulo p parametrises the ideal", "statement": "Given the matrix of the multiplication by the last variable modulo a zero-dimensional ideal and an odd prime, the change of order never fails; whenever it returns an elimination polynomial and coordinates, the polynomial is monic of degree the dimension of the quotient and squarefree, its value at the last variable is in the ideal and divides every other such polynomial, and for every other variable (linear ones included) the variable plus its coordinate polynomial in the last variable is in the ideal; the answer does not depend on the random vector, the kernel or old memory. It gives up only if the minimal polynomial of the sequence is too short or not squarefree; a quotient of dimension one is always parametrised, and if the last variable leads a linear form and the dimension is larger it always gives up. Modulo 2 the program divides by zero.", "quantifier": "all odd primes, all ideals, all dimensions, all random vectors, both kernels", "why_tests_cant": "The computation is randomised and depends on the degree; the result is not checked by the program.", "anchors": ["src/fglm/fglm_core.c:nmod_fglm_compute_trace_data", "src/fglm/fglm_core.c:compute_parametrizations", "src/fglm/fglm_core.c:invert_hankel_matrix", "src/fglm/fglm_core.c:solve_hankel", "src/fglm/fglm_core.c:set_param_linear_vars"]}
{"id": "C59", "title": "The matrix built from a Groebner basis is the multiplication matrix", "statement": "For every reduced zero-dimensional Groebner basis modulo p with its standard monomials in increasing order, the matrix built is the matrix of the multiplication by the last variable on the standard monomials, which form a basis of the quotient; it is refused exactly when the number of standard monomials whose product by the last variable is neither standard nor leading exceeds what the option allows; the routine never reads outside its arrays and never reports an inconsistent staircase, if the sizes fit in 32 bits; the normal forms it needs are computed by the program itself.", "quantifier": "all numbers of variables, all moduli, all reduced bases with finite staircase, all values of the option", "why_tests_cant": "The cases depend on the shape of the staircase relative to the last variable; a wrong row gives a wrong parametrisation only for some ideals.", "anchors": ["src/msolve/hilbert.c:build_matrixn_unstable_from_bs_trace", "src/msolve/hilbert.c:copy_poly_in_matrix_from_bs_32", "src/msolve/hilbert.c:copy_nf_in_matrix_from_bs_32"]}
{"id": "C60", "title": "The computation modulo one prime describes exactly the solutions", "statement": "From polynomials with coefficients modulo an odd prime p, the computation (Groebner basis, staircase, multiplication matrix, change of order) answers: no solution, infinitely many solutions, a matrix that is too expensive, or a result of the change of order. The first answer is given only if the ideal contains 1, hence there is no zero in any nontrivial ring with p = 0; the second only if some variable is free; a parametrisation has the dimension of the quotient as degree, a squarefree polynomial generating the elimination ideal of the last variable, generates the ideal of the input, and its points are exactly the common zeroes of the input in every commutative ring with p = 0; it depends on the ideal and p only, not on the generators, options, threads or random vectors. With enough steps an answer is always reached unless a representation limit is met.", "quantifier": "all numbers of variables, odd primes of the three representations, lists of polynomials in stored form, options, schedules, random vectors, commutative rings with p = 0", "why_tests_cant": "The chain of five algorithms is randomised and a wrong answer at one stage (a missing basis element, a wrong row, a wrong Hankel solution) may still be a plausible parametrisation; solutions in extension fields cannot be enumerated.", "anchors": ["src/msolve/msolve.c:initial_modular_step", "src/msolve/msolve.c:check_for_single_element_groebner_basis", "src/neogb/f4.c:core_f4", "src/msolve/hilbert.c:build_matrixn_unstable_from_bs_trace", "src/fglm/fglm_core.c:nmod_fglm_compute_trace_data"]}
{"id": "C61", "title": "Normal forms are correct, canonical and decide ideal membership", "statement": "Reducing polynomials by a basis modulo p returns, for each of them in the same position, a polynomial congruent to it modulo the ideal, without monomials divisible by a leading monomial of the basis, with decreasing terms and nonzero residues as coefficients; the computation ends without undefined behaviour for every basis; for Groebner bases the result depends only on the ideal, the order and the residue class (not on the basis, the field representation, the threads or other options) and is zero exactly for the members of the ideal of the original input.", "quantifier": "all numbers of variables, orderings, primes of the three representations, monic bases, lists of polynomials, numbers of steps", "why_tests_cant": "The reduction goes through symbolic preprocessing and sparse linear algebra; a missing reducer or a wrong first column gives a result that is only wrong for some inputs, and uniqueness quantifies over all bases and options.", "anchors": ["src/neogb/nf.c:core_nf", "src/neogb/symbol.c:select_tbr", "src/neogb/convert.c:return_normal_forms_to_basis", "src/neogb/la_ff_32.c:exact_sparse_reduced_echelon_form_ff_32"]}
{"id": "C62", "title": "Lifting of a Groebner basis over Q", "statement": "When the multi-modular lifting of a Groebner basis reports success, every polynomial has a positive leading coefficient and integer coefficients which agree with all images of an initial nonempty part of the primes and with the image of one later prime that was not used to compute them; if the images come from rational coefficients a/b and the cross difference is below the product of the primes used, the lifted coefficient equals a/b. The loop performs no division by zero and no inversion of a non-unit, whatever the images. Beyond that bound success does not certify the result.", "quantifier": "all numbers and shapes of polynomials, all image values, all sequences of distinct 31-bit primes with any of them rejected, any pattern of rounds with and without reconstruction", "why_tests_cant": "the state persists over rounds (guessed denominators, counters, partially lifted segments), and a wrong guess at an early prime is only visible for particular residues", "anchors": ["src/msolve/lifting-gb.c:400-1120", "src/msolve/lifting-gb.c:1296-1470"]}
{"id": "C63", "title": "Lifting of a parametrisation over Q", "statement": "Solving over the rationals computes the parametrisation modulo many primes and lifts it. When the lifting ends, the returned eliminating polynomial E and each coordinate A with its positive denominator f agree with the modular parametrisations of all the primes of a set that contains the first prime, and with that of one more prime that was not used to compute them, where the coordinate is compared up to the length of its image and unless that prime divides f. Modulo these primes f E' X = A modulo E for the coordinate X computed there. When the images are those of a rational parametrisation whose heights are small against the product of the primes used, the result is this parametrisation. It is not a certificate: images of a parametrisation with larger coefficients are lifted to a wrong one, and a coordinate that is zero modulo the last prime is not checked at all.", "quantifier": "all images (degree, number of coordinates, lengths, residues), all distributions over threads and rounds, all decisions not to reconstruct, all patterns of bad primes", "why_tests_cant": "the conclusion quantifies over all sequences of primes and images and over the decisions taken by timing; the unchecked cases need primes that divide a denominator or a coordinate", "anchors": ["src/msolve/msolve.c:1173-1399", "src/msolve/msolve.c:1451-1490", "src/msolve/msolve.c:2255-2503", "src/msolve/lifting.c:535-704"]}
{"id": "C64", "title": "A printed Groebner basis can be read back", "statement": "The Groebner basis written to the output, modulo p or over the rationals, consists of comment lines and a bracketed list whose text denotes exactly the polynomials of the basis, in their order, with their exponents and coefficients; put in an input file with the variables and the characteristic, the list is read as the same polynomials (modulo p up to the representative, over the rationals exactly). The same holds for the list of leading monomials modulo p when none of them is 1; for the whole ring an empty list is printed instead.", "quantifier": "all bases with at most 900 (over Q 500) variables with names of at most 47 characters, all primes below 2^31, all 16-bit exponents, all elimination blocks; over Q all lifted vectors with at most 10000 digits", "why_tests_cant": "the output is a text whose meaning depends on the grammar of the reader; round trips on samples do not cover signs, units, zero coefficients and block layouts in all combinations", "anchors": ["src/msolve/iofiles.c:67-360", "src/msolve/lifting-gb.c:277-373", "src/msolve/lifting-gb.c:1687-1745"]}
{"id": "C65", "title": "Images of a basis modulo primes are stored exactly, and the lifted basis is exported as it is", "statement": "When a Groebner basis over Q is computed with several primes, the images are stored as dense vectors over the list of the monomials that can occur. For reduced bases the search for the place of a monomial always ends inside the list; the primes kept are the first one and those whose basis has the same leading monomials; and for every prime kept the stored vectors have exactly the coefficients of that basis, 0 elsewhere, and determine the polynomials. The exported arrays of lengths, exponents and numerators list the terms of the lifted polynomials, leading one first, with exponent 0 for the eliminated variables. One exception: the first reallocation reads a field that is not yet initialised, and depending on its value, zero coefficients for the third prime can be uninitialised memory.", "quantifier": "all reduced bases, all numbers of variables and eliminated variables, all sequences of primes and bases, all values of the uninitialised field", "why_tests_cant": "The storage is right only because of a relation between three orders (terms, leading monomials, list of monomials) that holds for all staircases; the uninitialised read shows only for some stack contents.", "anchors": ["src/msolve/lifting-gb.c:164-243", "src/msolve/lifting-gb.c:441-554", "src/msolve/lifting-gb.c:587-793", "src/msolve/lifting-gb.c:1243", "src/msolve/lifting-gb.c:1350-1363", "src/msolve/lifting-gb.c:1503-1576", "src/msolve/hilbert.c:554-562"]}
{"id": "C66", "title": "The text of the solutions says what was computed", "statement": "The text written for a system has exactly one meaning as nested lists of numbers, quotients and names. It is [-1] when there is no solution, [1, n, -1, []] when the set of solutions is infinite, and otherwise 0 followed by the parametrisation if it is asked for (always in positive characteristic) and by the boxes of the real solutions unless only the parametrisation is asked for. The parametrisation read in the text has exactly the characteristic, the number and the names of the variables, the degree, the linear form, the eliminating polynomial, the denominator and the numerators held in memory; the ends of the boxes read in the text are exactly the dyadic numbers held in memory. Together with the isolation of the roots, the numbers read in the text enclose every real solution under the conditions of C34. Nothing is written when the computation failed.", "quantifier": "all parametrisations, linear forms (random ones with at most 2000 variables, powers below 2^31), names without blanks and quotes, all lists of boxes with nonnegative exponents, all values of the option for the parametrisation, all characteristics", "why_tests_cant": "The meaning of the text is a statement about every reader and all lengths of lists and numbers; samples do not cover empty polynomials, zero ends, exponents 0 and 1 and missing separators in all combinations.", "anchors": ["src/msolve/msolve.c:81-225", "src/msolve/msolve.c:2591-2652", "src/msolve/msolve.c:3447-3530", "src/fglm/fglm_core.c:102-115"]}
{"id": "C67", "title": "Probabilistic linear algebra never returns a wrong row and loses rows only on rare draws", "statement": "With the probabilistic linear algebra (option -l 44) over a prime field, for every sequence of values of rand() and every interleaving of the threads: no step is undefined and the function returns; the rows returned are combinations of the rows of the matrix, in reduced echelon form, and their leading columns are among those the exact variant finds. The list returned is exactly that of the exact variant unless some block of rows stopped at a draw whose combination lies in the span of what was returned although a row of the block does not; of the N^n ways of drawing multipliers for n rows (N = 32768 for characteristics of 17 to 31 bits, N = p below) at most N^(n-1) do that.", "quantifier": "all primes below 2^31, all matrices of the shape built by symbolic preprocessing with fewer than 2^31 rows, all values of rand(), all schedules of all numbers of threads", "why_tests_cant": "A lost row shows only for rare draws and depends on thread timing; tests run a few seeds and cannot show that no draw yields a wrong row or bound the losing draws.", "anchors": ["src/neogb/la_ff_32.c:2299-2499", "src/neogb/la_ff_16.c:719-921", "src/neogb/la_ff_8.c:867-1069"]}
{"id": "C68", "title": "Dense linear algebra variant returns the rows of the sparse variant", "statement": "The exact linear algebra that continues with dense rows after the reduction by the known pivots (option -l 1) never does anything undefined and returns, whatever the thread schedule; the rows it returns are, in number, order and coefficients, those of the exact sparse variant (option -l 2): the reduced echelon form of the part of the row space that vanishes on the columns of the known pivots.", "quantifier": "all matrices, primes below 2^31 of the class of each of the kernels, numbers of columns and pairs of thread schedules", "why_tests_cant": "Schedules of racing rows and all matrices; the two variants start from different intermediate rows.", "anchors": ["src/neogb/la_ff_32.c:exact_sparse_dense_linear_algebra_ff_32", "src/neogb/la_ff_16.c:exact_sparse_dense_linear_algebra_ff_16", "src/neogb/la_ff_8.c:exact_sparse_dense_linear_algebra_ff_8"]}
{"id": "C69", "title": "Groebner bases with option -l 1: right over prime fields, impossible over the rationals", "statement": "Over a prime field a run with option -l 1 returns exactly the basis of a run with the default linear algebra. Over the rationals the same run also has to record a trace: it records only the leading monomials of each round that found new elements (the rows and reducers are missing, and the ninth such round is written past the end of the array of rounds), and a trace with at least one such round is then refused for every further prime and every system, so that no result over the rationals is ever obtained with this option.", "quantifier": "all systems, monomial orders, primes and thread schedules", "why_tests_cant": "A statement about all systems and all further primes; the overrun needs nine productive rounds.", "anchors": ["src/neogb/f4.c:core_f4", "src/neogb/la_ff_32.c:exact_sparse_dense_linear_algebra_ff_32", "src/neogb/tools.c:add_lms_to_trace", "src/neogb/symbol.c:generate_matrix_from_trace"]}
{"id": "C70", "title": "Elimination (option -e): the kept part is the reduced Groebner basis of the elimination ideal", "statement": "Computing with a block order that eliminates the first k variables: the elements of the result whose leading monomial is free of these variables stand in front, contain none of these variables, and are exactly the reduced Groebner basis (degree reverse lexicographic, in the other variables) of the ideal of all polynomials in the other variables that the input ideal contains; the same list as computed from any generators of that ideal. Over the rationals exactly this part is stored for the first and every further prime kept. Exception: when the elimination ideal is zero, the computation over the rationals reads before the beginning of an array.", "quantifier": "all systems, numbers of eliminated variables, primes, kernels, thread schedules and sequences of primes", "why_tests_cant": "Membership in the elimination ideal quantifies over all polynomials and all combinations of the generators; uniqueness over all generating systems of an ideal.", "anchors": ["src/msolve/lifting-gb.c:compute_num_gb", "src/msolve/lifting-gb.c:gb_modular_trace_learning", "src/msolve/lifting-gb.c:gb_modular_trace_application", "src/msolve/hilbert.c:monomial_basis_enlarged", "src/neogb/f4.c:core_f4", "src/neogb/order.c:monomial_cmp_be"]}
{"id": "C71", "title": "Bases over the rationals: all but finitely many primes are good, and lifting them gives the true basis", "statement": "Every system with integer coefficients has a reduced Groebner basis over the rationals, unique up to a factor for each element. For all but finitely many primes the computation modulo the prime, whenever it ends with a result, returns exactly the image of that basis; the same holds for the results obtained by replaying a trace learned modulo one good prime on another good prime. When the images used by the lifting come from good primes, every coefficient of the lifted basis is that of the basis over the rationals as soon as the product of the primes used exceeds the size of the difference of the two cross products.", "quantifier": "all systems with integer coefficients, monomial orders, primes, kernels, thread schedules and sequences of primes", "why_tests_cant": "Finiteness of the set of bad primes and equality with the basis over the rationals quantify over all primes and all polynomial combinations of the generators.", "anchors": ["src/neogb/f4.c:core_f4", "src/msolve/lifting-gb.c:msolve_gbtrace_qq", "src/msolve/lifting-gb.c:gb_modular_trace_learning", "src/msolve/lifting-gb.c:gb_modular_trace_application", "src/msolve/lifting-gb.c:ratrecon_gb"]}
{"id": "C72", "title": "Saturation (option -S): the basis printed lies between the ideal and its saturation; when it is known to be the saturation", "statement": "Over a prime field, whenever the saturation of an ideal by the last polynomial ends with a result, that result is the reduced Groebner basis, elements in increasing order of leading monomials, of an ideal that contains the input ideal and all of whose elements are taken into the input ideal by a power of the last polynomial. It is the saturation if the program's own test answered yes on a polynomial with leading coefficient 1, and if it is 1; two such complete runs on generators of the same ideal print the same. It need not be the saturation otherwise: input without critical pairs is returned unsaturated; if the last polynomial's normal form is not monic the test can answer yes although the ideal is not saturated; and after a negative answer of the test, the arrays of leading monomials can be written out of bounds.", "quantifier": "all numbers of variables, generators, polynomials to saturate by, primes between 2^16 and 2^31, thread schedules, orders of equal rows and random draws", "why_tests_cant": "Membership in an ideal and in its saturation quantifies over all polynomial combinations and all powers; a test sees single runs and single schedules.", "anchors": ["src/neogb/f4sat.c:core_f4sat", "src/neogb/f4sat.c:is_already_saturated", "src/neogb/f4sat.c:update_multipliers", "src/neogb/la_ff_32.c:exact_sparse_reduced_echelon_form_sat_ff_32", "src/neogb/la_ff_32.c:compute_kernel_sat_ff_32", "src/neogb/f4.c:reduce_basis", "src/msolve/msolve.c:core_msolve"]}
{"id": "C73", "title": "Saturation (option -S): the multipliers tried are exactly the standard monomials up to a degree", "statement": "For leading monomials without a constant, the routine that lists the multipliers of the polynomial to be inverted returns every monomial up to the given degree that no leading monomial divides, each exactly once and the monomial 1 first, and writes only inside the arrays it has allocated; in the first step their size is just large enough.", "quantifier": "all numbers of variables, lists of leading monomials and degrees", "why_tests_cant": "The allocation is smaller than the number of candidates in general; that the entries kept never exceed it is a counting argument over all monomial ideals.", "anchors": ["src/neogb/f4sat.c:quotient_basis", "src/neogb/f4sat.c:generate_new_basis_elements", "src/neogb/f4sat.c:update_indices"]}
{"id": "C74", "title": "Change of order: when the branch for a zero constant coefficient is taken, and that it reads out of bounds", "statement": "In the change of order modulo a prime, with a squarefree minimal polynomial of full degree D, the inversion of the Hankel matrix takes its second branch exactly when the matrix s_(i+j+1) with D-1 rows of the sequence is singular modulo the prime. In that branch the program reads one number behind its 2D numbers, out of bounds when the array has just been allocated; for D >= 4 it then always copies from in front of an array; for D = 3 there is a system and a random vector for which, whatever that extra number is, the coordinates returned are wrong. In all other cases the branch has no influence.", "quantifier": "all primes below 1518500213, multiplication matrices, random vectors, contents of memory behind the points", "why_tests_cant": "The branch is taken only for about one in p random vectors, so tests practically never reach it; that it can never work is a statement about all inputs that reach it.", "anchors": ["src/fglm/fglm_core.c:invert_hankel_matrix", "src/fglm/berlekamp_massey.c:nmod_em_gcd_preinstantiated", "src/fglm/fglm_core.c:compute_parametrizations"]}
{"id": "C75", "title": "Solving over the rationals: from the input polynomials to the boxes of its real solutions", "statement": "Let the ideal of the input over the rationals be generated by E(x_n) and e_k x_k + c_k(x_n) with E without multiple root. Then this parametrisation is unique up to constants, and its points are the solutions of the input in every ring of characteristic zero. For all primes but finitely many, the computation modulo the prime never answers \"no solution\" or \"infinitely many\", and a parametrisation it answers with is the image of the one over the rationals. When the lifting of such images ends, and the numbers are small against products of the primes used, the polynomials printed (eliminating polynomial, its derivative as common denominator, numerators with their factors) describe exactly the solutions of the input, in every ring of characteristic zero; over the reals there is one list of boxes for each real solution, in order, and the boxes contain it whenever the evaluation of the denominator on the isolating interval is steady and no root is an end point of an interval.", "quantifier": "all inputs with such a parametrisation, all primes but finitely many, all runs of the lifting, all precisions", "why_tests_cant": "It relates the output to the solutions of the input for all inputs, across all the stages of the program (Groebner basis, change of order, lifting, isolation, boxes), with infinitely many primes.", "anchors": ["src/msolve/msolve.c:core_msolve", "src/msolve/msolve.c:msolve_trace_qq", "src/msolve/msolve.c:new_rational_reconstruction", "src/msolve/msolve.c:real_msolve_qq", "src/fglm/fglm_core.c:nmod_fglm_compute"]}
{"id": "C76", "title": "What the answer at one prime says about the solutions over the rationals", "statement": "For all primes but finitely many (good reduction: no leading coefficient of the input or of the reduced Groebner basis over the rationals vanishes, and the basis reduces to the basis), the answer modulo the prime is right over the rationals: it is 'no solution' exactly when 1 is in the ideal over the rationals, and then the input has no zero in any field of characteristic zero; 'infinitely many' only when a variable is free, so the ideal is not zero-dimensional; a parametrisation of degree at most the prime exists only when the input has a parametrisation over the rationals of the same degree, whose eliminating polynomial reduces to the one printed. So one parametrisation at one good prime implies that the computations modulo all other primes but finitely many lead to images of one rational parametrisation. For a prime which is not good the answer may be wrong: 101x-1, y modulo 101 gives 'no solution'.", "quantifier": "all inputs, all primes but finitely many, all runs", "why_tests_cant": "The set of primes is infinite and the statement compares with the solutions over the rationals, which the program never computes with; a test can only compare two runs of the same program.", "anchors": ["src/msolve/msolve.c:core_msolve", "src/msolve/msolve.c:msolve_trace_qq", "src/msolve/msolve.c:modular_trace_learning", "src/fglm/fglm_core.c:nmod_fglm_compute"]}
{"id": "C77", "title": "Answers over a prime field when the ideal is not in shape position", "statement": "Over a prime field, when the polynomial found in the last variable is not squarefree of full degree, the program still answers with a parametrisation. Whenever it does, and the start vector was a lucky one (the minimal polynomial V of the sequence generates the polynomials of the ideal in the last variable, and has degree at least 2), the eliminating polynomial E printed is the squarefree part of V, and, with V = Q E, if the coordinates of the ideal (I : Q) are polynomials in the last variable, then the coordinates printed parametrise (I : Q): every point given by the answer, in every ring where p = 0, is a solution of the input, and every solution in a field where Q does not vanish at the last coordinate is given. If the coordinates are polynomials in the last variable modulo the ideal itself, the answer gives exactly the solutions in every field. The verification by random numbers accepts the right coordinates as soon as the numbers are not eigenvalues. Not more than that: for (x-1)(x-2)(x-3), (x-1)y, y^2 modulo 101 and default options the answer is the point (1,0) only, two of the three solutions are lost; with option -d 4 and the last variable leading in a linear form (x^3-2, y-1) the answer is a point which is not a solution; in the second round, after a random linear form, the squares are not verified, and a form which does not separate the solutions gives points which are not solutions; a coordinate which is zero may be written outside of its block when E has degree 1.", "quantifier": "all prime fields with p below 1518500213 and p odd, all inputs, all start vectors and random numbers, all runs", "why_tests_cant": "Whether the coordinates are right is a statement about all solutions in all extension fields, and the branch is taken only for ideals out of shape position, where the result depends on random vectors; a test compares a few systems.", "anchors": ["src/fglm/fglm_core.c:compute_parametrizations_non_shape_position_case", "src/fglm/fglm_core.c:nmod_fglm_compute", "src/msolve/msolve.c:initial_modular_step", "src/msolve/msolve.c:core_msolve"]}
{"id": "C78", "title": "Solving over a prime field: from the input system to the answer, through all restarts", "statement": "For a system over a prime field with an odd prime below 2^31 larger than the number of variables (coefficients not zero modulo the prime, no monomial twice in a polynomial): however often the program restarts with another variable order or an added linear form, and whatever random numbers it draws, if it ends with an answer then the polynomials last handed to the Groebner engine are in standard form, and their common zeroes are in bijection with the solutions of the input, by undoing the change of coordinates, in every commutative ring of that characteristic. So: the answer 'no solution' means there is none in any extension; a parametrisation whose degree is the dimension of the quotient has as points exactly the solutions of the input; with multiple roots this holds in every extension field when the start vector was lucky and the coordinates are polynomials in the last one; 'infinitely many' means the ideal last computed has a free variable. With a prime not larger than the number of variables this fails: a power in the linear form vanishes modulo the prime, the import drops the generator, and the program answers 'infinitely many' for a system with finitely many solutions.", "quantifier": "All systems, primes, numbers of restarts, outcomes of rand(), sorting routines, options and schedules of the engine; all rings of the characteristic.", "why_tests_cant": "A restart happens only for systems without generic coordinates, and its outcome depends on random numbers; a test compares a few answers, while the claim is about all solutions in all extensions and any chain of restarts; the small prime fault needs p at most n and a system out of shape position.", "anchors": ["src/msolve/msolve.c:4041-4150", "src/msolve/msolve.c:429-729", "src/msolve/msolve.c:1917-1990", "src/neogb/engine.c:54-84", "src/neogb/io.c:200-560"]}
{"id": "C79", "title": "A program that calls the library gets the basis and the normal forms in the arrays it reads", "statement": "A caller gives a system modulo an odd prime below 2^31 as three arrays (lengths, exponents, coefficients; coefficients not smaller than minus the prime and not 0 modulo it, exponents below 2^16, no monomial twice). When the call for a Groebner basis returns, the returned numbers and the three arrays it hands out denote, in the only way they can be read, a minimal monic Groebner basis of the ideal of the given polynomials, reduced and increasing if that was asked for; the call does end; two calls for the same ideal give the same arrays whatever the generators and options. The call for normal forms returns for each given polynomial, in order, the element congruent to it modulo the ideal none of whose monomials is a leading monomial of the ideal; it is one term with coefficient 0 exactly for members of the ideal. Two cases fail: with a block order, a member of the ideal among the polynomials to reduce makes the call write one exponent past the end of the array; and a system all of whose polynomials contain a zero coefficient ends the calling process instead of giving the zero polynomial.", "quantifier": "All systems, primes, orders other than the lexicographic one, options, schedules and sorting routines.", "why_tests_cant": "The arrays of the caller are flat, so that one wrong length or offset shifts everything after it; a test compares a few answers with another system. The overflow needs a block order together with a polynomial in the ideal, and one integer past the end of a heap block usually goes unnoticed.", "anchors": ["src/neogb/f4.c:766-851", "src/neogb/nf.c:114-224", "src/neogb/io.c:454-597", "src/neogb/engine.c:24-112"]}
{"id": "C80", "title": "A program that calls the solver through the library gets the parametrisation and the boxes", "statement": "When the solver is called as a library function over the rationals and there are finitely many solutions, the numbers and flat arrays that come back denote, in the only way they can be read, exactly the parametrisation (eliminating polynomial, denominator, numerators each followed by its factor) and the boxes (lower and upper end of each coordinate, with their powers of two) that were computed; the linear form that comes back is the one added to the system through the restarts, or null if none was added. With infinitely many solutions or none the arrays are null and the variable for the linear form is not assigned. These cases fail: over a prime field with finitely many solutions in at least two variables a null pointer is followed, with one variable two empty polynomials come back; when the computation gives up for lack of generic coordinates (second kind of failure, or any over a prime field) two lengths are written to a block for one; and the copies of the names of the variables, which are printed and handed back, are not terminated.", "quantifier": "All results of the computation, all numbers of variables and solutions below 2^31, all restarts, all names.", "why_tests_cant": "The arrays are flat, so that one wrong length shifts all that follows; the failing cases need a prime field, a failure that depends on random numbers, or a read one byte past a small heap block, which mostly goes unnoticed.", "anchors": ["src/msolve/msolve.c:4838-4953", "src/msolve/msolve.c:4956-5107", "src/msolve/msolve.c:98-105", "src/msolve/msolve.c:2101-2152", "src/msolve/msolve.c:3447-3530"]}
{"id": "C81", "title": "Solving over the rationals: what is reported are the solutions of the input, whatever restarts happened", "statement": "For a system with rational coefficients (nonzero numerators and denominators, exponents below 2^16, every monomial once in a polynomial) and a degree order, after any sequence of restarts of the solver (exchanges of variables, added linear forms, random linear forms) the integer polynomials that the attempt works with exist, are in standard form, and their zeroes correspond one to one, through the coordinates that are reported, to the solutions of the input, in every field of characteristic zero. If the attempt finds that the constants are in the ideal, the input has no solution. When the lifted parametrisation represents the zeroes of these polynomials, root isolation ends and no root is an end point, the lists of boxes that are written are one for each real solution of the input, without repetition, with the coordinates in the order of the input, and enclose it whenever the evaluation of the denominator is steady.", "quantifier": "all systems, numbers of variables, sequences of restarts and random values, all fields of characteristic zero, all precisions", "why_tests_cant": "Restarts happen for particular systems and random values; a test compares with known solutions of few systems.", "anchors": ["src/msolve/msolve.c:1917-1990", "src/msolve/msolve.c:3385-3420", "src/neogb/io.c:import_input_data", "src/neogb/basis.c:461-520"]}
{"id": "C82", "title": "Linear algebra over the integers (characteristic 0)", "statement": "When a basis is computed in characteristic 0 directly with integer coefficients, each matrix reduction returns rows which together with the known rows have exactly the rational row space of the matrix, in reduced echelon form, primitive and with positive leading coefficients; nothing undefined happens; the rows depend only on the row space, not on the number of threads, the schedule, the order of the rows or the linear algebra option (1 or another). The final interreduction of a basis keeps the rational row space and makes every element zero at the leading monomials of the others as long as no row is a multiple sharing the coefficient array of another row; as soon as one is (a tail monomial divisible by a leading monomial), the shared array has been emptied and the call dereferences a NULL row. The interreduced rows need not be primitive.", "quantifier": "all matrices with integer entries of any size, all numbers of threads and schedules, all bases", "why_tests_cant": "Rational row spaces, uniqueness and all interleavings of the threads are beyond sampling; the failure of the final interreduction needs a tail divisible by a leading monomial with a nontrivial multiplier.", "anchors": ["/repo/src/neogb/la_qq.c:22-877", "/repo/src/neogb/f4.c:254-340", "/repo/src/neogb/hash.c:1340-1380", "/repo/src/neogb/convert.c:660-760"]}
{"id": "C83", "title": "The command line and the beginning of the program", "statement": "Every list of words is one sequence of options by the usual grammar (clusters of letters, arguments in the same or the next word, operands in between, two dashes end the options), and the program does what it asks for: -h and -V, the first of them, print and exit 0 whatever else is wrong; else exit 1 without -f and -F, exit 1 with an unknown option or a missing argument; else each setting has the value of the last occurrence of its letter, brought into its documented range, or its default, and nothing else matters: neighbouring options with different letters may be exchanged. A number that fits into 32 bits is taken as written. The input is read as it was on the disk, the output is empty and all other files are unchanged, and the linear algebra is exact for a characteristic below 2^15, provided the output is not the input file. Not true in general: larger numbers are silently reduced modulo 2^32; -I takes the next word although the help shows it without an argument; an output that is the input file, also under another name, is erased before it is read; -F without a readable -f reads a file that is not there.", "quantifier": "all lists of words, all sequences of options, all texts of arguments, all disks with any aliases of names, all input files", "why_tests_cant": "the combinations of options, orders, clusters and argument texts are unbounded; the order of clearing and reading only shows with aliased names", "anchors": ["src/msolve/main.c:150-340", "src/msolve/main.c:343-438"]}
{"id": "C84", "title": "Vectors and rows in the monomial basis for the quotient by a polynomial (-C)", "statement": "For option -C the vector of a normal form has, for each monomial of the ascending basis, the coefficient of that monomial, and the row of a basis element has the negated coefficients, also though the loop runs on over the elements before it; provided no two monomials differ only in the first two variables, and for a normal form of at least two terms the second largest is in the basis or the largest is not. The comparison of monomials has the sign of the degree reverse lexicographical order. Not true in general: the comparison never looks at the first two variables, so that coefficients of x and y are exchanged; a largest term behind a term outside of the basis is lost; a single term outside of the basis, and any normal form with fewer than five terms, makes the program read memory before the terms.", "quantifier": "all numbers of variables, all ascending bases, all polynomials, all elements before", "why_tests_cant": "the conditions under which the merge of two sorted lists goes wrong depend on where the two lists interleave; wrong coefficients give a wrong ideal without any message", "anchors": ["src/msolve/hilbert.c:584-641", "src/msolve/hilbert.c:846-882", "src/msolve/hilbert.c:925-1029", "src/msolve/hilbert.c:2077-2089"]}
{"id": "C85", "title": "Left nullspace of a matrix modulo a prime: basis, permutation, row rank profile", "statement": "Given any matrix modulo a prime (with the right kernel of its transpose delivered by the matrix library as documented: columns generating the kernel, in reduced column echelon form), the routine for the left nullspace returns as many rows as the nullity; every row multiplied by the matrix is zero; every vector annihilated by the matrix is exactly one combination of the rows, its coordinates being its own entries at the pivots; each row has a 1 at its pivot, which is its last nonzero entry, and 0 at the other pivots. The compact form returns a permutation of all row indices, first the indices without pivot and then those with pivot, each part increasing, and the kernel entries at the first part; the first part is the row rank profile: those rows of the matrix are independent and each other row is a combination of rows of the profile that precede it. No access is outside an array and the caller's permutation array may hold anything.", "quantifier": "all moduli, dimensions, matrices, kernels meeting the documented contract, initial contents of the permutation array", "why_tests_cant": "The order of pivots and gaps depends on the rank pattern, of which there are exponentially many; a misplaced index only shows for patterns with gaps at the start, middle or end.", "anchors": ["src/upolmat/nmod_mat_left_nullspace.c:25-47", "src/upolmat/nmod_mat_left_nullspace.c:49-112", "src/upolmat/nmod_mat_extra.h:40-82"]}
{"id": "C86", "title": "Approximant bases of polynomial matrices modulo a prime: basis of the module, two wrong results", "statement": "For a nonzero matrix F of polynomials modulo a prime, an order and any shift, whenever the computation of an approximant basis does not meet a residual matrix with independent rows before the last round, it returns a square matrix whose rows multiplied by F vanish modulo x^order, such that every vector of polynomials with this property is a combination of the rows with polynomial coefficients, and in only one way. The rows are considered in the order of the shift, ties by index. Not true in the two exceptional cases: when a residual has independent rows the routine returns the basis of a smaller order reached so far (the factor x^(order-ord) announced in the comment is not applied), which is never a basis of the order asked for; for the zero matrix it returns x^order times the identity although all vectors qualify.", "quantifier": "all moduli, dimensions, polynomial matrices, orders, shifts; all kernels meeting the documented contract", "why_tests_cant": "The basis depends on the ranks of all residuals and on the order of the shift; that the rows generate all approximants is a statement about infinitely many vectors.", "anchors": ["src/upolmat/nmod_mat_poly_mbasis.c:31-83", "src/upolmat/nmod_mat_poly_mbasis.c:85-258", "src/upolmat/nmod_mat_poly_arith.c:25-62", "src/upolmat/nmod_mat_poly.h:587-590"]}
{"id": "C87", "title": "Divide and conquer for approximant bases: product of the two halves, independence of the threshold, zero halves", "statement": "For every matrix of polynomials modulo a prime, order and shift the divide and conquer computation of an approximant basis ends. If no call of the iterative routine at the bottom of the recursion receives a zero matrix or leaves early (C86), the product of the bases for the first half and for the middle product of the second half is a basis of the approximants of the order asked for, for the threshold 32 of the sources and for every other positive threshold. Not true otherwise: for an order above 32 and a nonzero matrix whose coefficients up to half of the order plus one vanish, the result is never a basis, because the first half is answered as for the zero matrix.", "quantifier": "all moduli, dimensions, polynomial matrices, orders, shifts and positive thresholds; all kernels meeting the documented contract", "why_tests_cant": "The recursion depth and the residuals depend on the order and on all coefficients; that the rows generate all approximants is a statement about infinitely many vectors, and inputs with vanishing low coefficients are not drawn at random.", "anchors": ["src/upolmat/nmod_poly_mat_pmbasis.c:28-74", "src/upolmat/nmod_poly_mat_utils.c:26-37", "src/upolmat/nmod_mat_poly_set_from.c:51-74", "src/upolmat/nmod_poly_mat_pmbasis.h:78"]}
{"id": "C88", "title": "Approximant bases are in shifted ordered weak Popov form and of minimal degrees", "statement": "For a nonzero matrix, the approximant basis of the iterative routine is in ordered weak Popov form for the given shift, also when the routine leaves early: the shift it returns is the list of the shifted degrees of the rows, the last entry of this degree in row r is the one of column r, and it is monic. The same holds for divide and conquer when no call of the iterative routine is exceptional (C86). There is no cancellation of leading terms in combinations of the rows, hence every nonzero approximant has a shifted degree at least that of one of the rows. Not true for the zero matrix, where the shift is returned unchanged although the rows are multiplied by x^order.", "quantifier": "all moduli above 1, dimensions, polynomial matrices, orders, shifts, thresholds; all kernels meeting the documented contract; all approximants", "why_tests_cant": "The form depends on the order of rows with equal shifted degrees in every round; minimality compares with infinitely many approximants.", "anchors": ["src/upolmat/nmod_mat_poly.h:560-590", "src/upolmat/nmod_mat_poly_mbasis.c:85-258", "src/upolmat/nmod_poly_mat_pmbasis.h:40-110", "src/upolmat/nmod_poly_mat_pmbasis.c:28-74"]}
{"id": "C89", "title": "Polynomials with matrix coefficients: allocation, truncation, copies; the shift into another polynomial loses the top", "statement": "For polynomials with matrix coefficients whose length does not exceed the allocation: making room changes no coefficient, a copy has the same coefficients, truncation keeps exactly the coefficients below the order and leaves no zero at the top, the shift in place multiplies by x^n; none of them touches a coefficient that is not initialised, and the length stays within the allocation. Not true for the shift into another polynomial: only length - n coefficients are copied and the last n positions keep what they held, so that the top coefficient is lost whenever it is not zero and the destination is not longer. Not true for the test for constants, which rejects every nonzero constant.", "quantifier": "all coefficients of any matrix shape, lengths, allocations, orders and shifts", "why_tests_cant": "Stale contents of the destination and the distance between length and allocation vary with the history of the object; the shift in place exchanges overlapping ranges, for all lengths and distances.", "anchors": ["src/upolmat/nmod_mat_poly.h:165-245", "src/upolmat/nmod_mat_poly.h:361-415", "src/upolmat/nmod_mat_poly_mem.c:104-171", "src/upolmat/nmod_mat_poly_shift.c:24-68"]}
{"id": "C90", "title": "Degrees and homogeneity of the input: right without elimination, the flag wrong with an elimination order", "statement": "When a system is imported without an elimination order, the reported homogeneity is true exactly if in every generator all terms have the same degree. The degrees stored with the generators are their total degrees, for elimination orders and for graded orders. Not true of the homogeneity for an elimination order: it is also reported when some generator has a term of larger degree than its leading term, so every such system is reported homogeneous although it is not. Once reported it is not taken back when further generators are imported.", "quantifier": "all systems of generators, numbers of variables and of eliminated variables", "why_tests_cant": "The result depends on how the degrees of all terms of all generators compare with those of the leading terms.", "anchors": ["src/neogb/io.c:25-53", "src/neogb/io.c:409-446", "src/neogb/hash.c:628-629", "src/msolve/msolve.c:3604-3608"]}
