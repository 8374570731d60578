{"claims": [
{"property": "C01", "status": "proved", "theorems": ["C01_mod_inverse_8", "C01_mod_inverse_16", "C01_mod_inverse_32", "C01_mod_inverse_of_zero"], "note": "all primes of each width, all operands of the argument type"},
{"property": "C02", "status": "proved", "theorems": ["C02_crt_step"], "note": "FLINT's n_invmod is modelled by its contract (file not in the repository)"},
{"property": "C03", "status": "proved", "theorems": ["C03_crt_incremental", "C03_crt_recovers"], "note": "any list of pairwise coprime word-size moduli"},
{"property": "C04", "status": "proved", "theorems": ["C04_ratrecon_sound", "C04_ratrecon_total", "C04_mpq_reconstruct_sound"], "note": ""},
{"property": "C05", "status": "proved", "theorems": ["C05_ratrecon_complete", "C05_mpq_reconstruct_complete", "C05_lift_then_reconstruct"], "note": ""},
{"property": "C06", "status": "proved", "theorems": ["C06_ratreconwden_sound", "C06_ratreconwden_complete"], "note": ""},
{"property": "C07", "status": "proved", "theorems": ["C07_vector_sound", "C07_vector_complete", "C07_vector_wden_sound", "C07_vector_wden_complete", "C07_resume_index_in_bounds", "C07_resume_index_in_bounds_wden"], "note": "soundness, completeness and resume index of both vector reconstruction variants"},
{"property": "C08", "status": "proved", "theorems": ["C08_is_prime", "C08_next_prime", "C08_next_prime_ends", "C08_selected_primes_good", "C08_selected_primes_distinct", "C08_small_arguments_refuted"], "note": "for the range of arguments msolve uses; the statement for small arguments is refuted"},
{"property": "C09", "status": "proved", "theorems": ["C09_check_unit", "C09_check_param", "C09_check_param_bad_denominator_refuted"], "note": "the coordinate check needs the prime not to divide the denominator; refuted otherwise"},
{"property": "C10", "status": "proved", "theorems": ["C10_orders", "C10_comparison", "C10_multiplication"], "note": "cmp_drl/cmp_lex/block comparison on laid-out exponent vectors with exponents below 2^16 and degree below 2^31"},
{"property": "C11", "status": "proved", "theorems": ["C11_no_infinite_descent", "C11_specification"], "note": ""},
{"property": "C12", "status": "proved", "theorems": ["C12_elimination"], "note": ""},
{"property": "C13", "status": "proved", "theorems": ["C13_refines", "C13_never_fails", "C13_interning", "C13_reinsert", "C13_reinsert_largest_table_refuted"], "note": "sequential table; also a refuted corner case of re-insertion in a table of exactly 2^32 slots"},
{"property": "C14", "status": "proved", "theorems": ["C14_product", "C14_entry", "C14_lcm_hash", "C14_overflow_refuted"], "note": "needs exponents below 2^16; refuted beyond"},
{"property": "C15", "status": "proved", "theorems": ["C15_mask_never_rejects", "C15_divmask_computed", "C15_division_test"], "note": ""},
{"property": "C16", "status": "proved", "theorems": ["C16_lcm", "C16_coprime"], "note": ""},
{"property": "C17", "status": "proved", "theorems": ["C17_round_trip", "C17_degrees", "C17_unbounded_refuted", "C17_zero_polynomial_export_refuted"], "note": "exponents and degrees below 2^16; refuted without that bound and for exporting a zero polynomial under a block order"},
{"property": "C18", "status": "proved", "theorems": ["C18_no_overflow", "C18_wide_matrix_refuted"], "note": "sharp: the column bound of the accumulating kernels is needed, see the refuted theorem"},
{"property": "C19", "status": "proved", "theorems": ["C19_reduction"], "note": ""},
{"property": "C20", "status": "proved", "theorems": ["C20_safe", "C20_row_space", "C20_terminates", "C20_echelon"], "note": "every schedule of atomic row steps, any number of threads; includes absence of undefined operations and termination"},
{"property": "C21", "status": "proved", "theorems": ["C21_deterministic"], "note": ""},
{"property": "C22", "status": "proved", "theorems": ["C22_pairs_complete", "C22_update_total"], "note": "Any history of updates and selections: standard representations for kept and taken pairs imply a Groebner basis (Buchberger criterion, product and chain criteria proved); the update never goes out of bounds."},
{"property": "C23", "status": "proved", "theorems": ["C23_sound", "C23_terminates", "C23_unique"], "note": "Whole F4 engine over prime fields, including termination and independence of the result from all internal choices. Exact sparse linear algebra only."},
{"property": "C24", "status": "proved", "theorems": ["C24_staircase", "C24_sorted_distinct", "C24_bounded", "C24_enlarged", "C24_colon_no_zero"], "note": "monomial_basis terminates with exactly the standard monomials in strictly increasing DRL order; bounded variants (colon, colon_no_zero, enlarged) as well. Hypothesis nv*|B| < 2^31 is needed, see C25_large_refuted."},
{"property": "C25", "status": "proved", "theorems": ["C25_buffer", "C25_buffer_bounded", "C25_large_refuted"], "note": "No execution writes outside the buffer whose capacity is sum(ind)+nvars. Without the size hypothesis the 32-bit index sum overflows (C25_large_refuted)."},
{"property": "C26", "status": "proved", "theorems": ["C26_dimension_zero", "C26_redundant_refuted"], "note": "Exact on minimal sets without 1; C26_redundant_refuted shows minimality is needed."},
{"property": "C27", "status": "proved", "theorems": ["C27_naive", "C27_divide_and_conquer", "C27_tables", "C27_constant_refuted"], "note": "Both shifts, with the tables the solver computes, for every degree >= 1 and block size >= 2; for a constant polynomial the loop bound wraps (refuted)."},
{"property": "C28", "status": "proved", "theorems": ["C28_truncated", "C28_descartes"], "note": "An answer of the truncated test is the exact variation count cut at 3; the complete test always returns that number."},
{"property": "C29", "status": "proved", "theorems": ["C29_rule", "C29_odd", "C29_interval", "C29_prune"], "note": "Descartes' rule for positive roots, parity, meaning of the answers 0, 1, 2 on (0,1), and of the pruning test."},
{"property": "C30", "status": "proved", "theorems": ["C30_bound", "C30_none"], "note": "Strict bound for all polynomials with nonzero leading coefficient."},
{"property": "C31", "status": "proved", "theorems": ["C31_sound", "C31_exact", "C31_count", "C31_endpoints", "C31_total", "C31_correct", "C31_capacity"], "note": "Soundness for every result, totality and independence of fuel for polynomials without multiple real root."},
{"property": "C32", "status": "proved", "theorems": ["C32_interval", "C32_refine", "C32_sound", "C32_negative_precision"], "note": "for all polynomials with simple roots, all precisions"},
{"property": "C33", "status": "proved", "theorems": ["C33_point", "C33_dyadic", "C33_sign", "C33_scalar", "C33_scalar_safe", "C33_interval_total", "C33_interval", "C33_interval_positive", "C33_interval_refuted", "C33_interval_refuted_neg", "C33_interval_refuted_sign"], "note": "interval evaluation: enclosure under the steadiness hypothesis, refuted without it (three counterexamples)"},
{"property": "C34", "status": "proved", "theorems": ["C34_exact", "C34_total", "C34_sound", "C34_solutions", "C34_enclosure_refuted", "C34_lost_solution", "C34_no_progress"], "note": "The unrestricted enclosure is false: C34_enclosure_refuted (bounds of the denominator that straddle zero), C34_lost_solution (interval ending at another root, full pipeline at precision 128), C34_no_progress (exponent 0)."},
{"property": "C35", "status": "proved", "theorems": ["C35_normalize"], "note": ""},
{"property": "C36", "status": "proved", "theorems": ["C36_ff", "C36_qq", "C36_multiline_refuted", "C36_one_line_refuted", "C36_fraction_refuted", "C36_zero_refuted", "C36_repeated_refuted", "C36_large_refuted", "C36_leading_plus_refuted"], "note": "Whole file, from the characters to the arrays of coefficients and exponents. The _refuted theorems show what the documented format promises and the code does not do."},
{"property": "C37", "status": "proved", "theorems": ["C37_residue", "C37_negative_refuted", "C37_import", "C37_complete", "C37_lost_refuted", "C37_multiple_refuted", "C37_rational"], "note": "the refuted theorems state exactly when coefficients are stored wrongly and when generators are lost"},
{"property": "C38", "status": "proved", "theorems": ["C38_class", "C38_smallest", "C38_large_refuted", "C38_invalid_refuted"], "note": "the refuted theorems cover the characteristics from 2^31 on"},
{"property": "C39", "status": "proved", "theorems": ["C39_variable_order", "C39_all_orders", "C39_solutions", "C39_real_solutions"], "note": "Reachable states of the restart loop; solutions in any commutative ring where the coefficient of the new variable is invertible, and real solutions without hypothesis."},
{"property": "C40", "status": "proved", "theorems": ["C40_extends", "C40_coefficients", "C40_total", "C40_overflow_refuted"], "note": "Shape for all reachable states; power coefficients; totality below 2^31 and undefined conversion beyond."},
{"property": "C41", "status": "proved", "theorems": ["C41_minimal", "C41_running"], "note": "For every history of insertions and selections: final removal is minimal and keeps the monomial ideal; the running set lmps generates it too."},
{"property": "C42", "status": "proved", "theorems": ["C42_closed", "C42_terminates"], "note": "For every state of the main loop."},
{"property": "C43", "status": "proved", "theorems": ["C43_kept", "C43_learn_same", "C43_replay"], "note": "Learning with the 32-bit and 8-bit kernels; the 16-bit kernel records no reducers."},
{"property": "C44", "status": "proved", "theorems": ["C44_residue", "C44_copy", "C44_generators", "C44_homomorphism"], "note": "residues, rows and homomorphism"},
{"property": "C45", "status": "proved", "theorems": ["C45_content", "C45_total"], "note": "all rows with nonzero first coefficient; totality for all nonempty rows"},
{"property": "C46", "status": "proved", "theorems": ["C46_normalize_row", "C46_normalize_initial", "C46_same_line"], "note": ""},
{"property": "C47", "status": "proved", "theorems": ["C47_minimal", "C47_unique", "C47_batches", "C47_too_few"], "note": "Full statement. FLINT's polynomial arithmetic (products, division with remainder, half gcd, modular inverse) is modelled by schoolbook algorithms; C47_too_few shows that 2D cannot be lowered."},
{"property": "C48", "status": "proved", "theorems": ["C48_copies", "C48_masks_lost", "C48_masks_harmless", "C48_arrays"], "note": "The masks are overwritten with zeros because the arguments of memcpy are swapped (duplicate.c l.70). The degree of a round is not copied, and the copied capacity is that of the original although only the used rounds are allocated; duplicate_tracer is called with btrace[0] = NULL in the current program."},
{"property": "C49", "status": "proved", "theorems": ["C49_columns", "C49_pairs", "C49_input", "C49_rows", "C49_decreasing", "C49_lex_terms_decreasing_refuted", "C49_unbounded_refuted"], "note": "consistency needs indices/degrees below 2^31 and no lex; refuted otherwise"},
{"property": "C50", "status": "proved", "theorems": ["C50_sound", "C50_terminates", "C50_rounds", "C50_correct", "C50_unlucky"], "note": "C50_unlucky shows that the condition on the learned leading monomials cannot be dropped."},
{"property": "C51", "status": "proved", "theorems": ["C51_decreasing", "C51_lex_refuted"], "note": "the refuted theorem covers the lexicographic order"},
{"property": "C52", "status": "proved", "theorems": ["C52_permutes"], "note": "both ways of moving"},
{"property": "C53", "status": "proved", "theorems": ["C53_simd"], "note": "lane arithmetic is modelled as the scalar arithmetic per lane"},
{"property": "C55", "status": "proved", "theorems": ["C55_table", "C55_unreduced_refuted"], "note": "For reduced bases; false for others (C55_unreduced_refuted)."},
{"property": "C56", "status": "proved", "theorems": ["C56_shown", "C56_stale_refuted"], "note": "Proportional when the last added form is random or no random form was added; otherwise refuted."},
{"property": "C57", "status": "proved", "theorems": ["C57_product", "C57_agree", "C57_sequence", "C57_wrap_refuted"], "note": "Hypothesis represents: the sparse structure holds the matrix, rows of the identity or dense rows, at most 2^32 dense entries. C57_wrap_refuted: what happens beyond."},
{"property": "C58", "status": "proved", "theorems": ["C58_param", "C58_minimal", "C58_same", "C58_one", "C58_scalar", "C58_two_refuted"], "note": "The branch for a zero constant coefficient of the first cofactor is the answer Special here; what the program then does is C74. FLINT's squarefree test and factorisation are used through sqf_contract (the test decides squarefreeness; the product of the factors is not longer, and shorter when the polynomial is not squarefree); FglmExample gives a function meeting it and ideals meeting all hypotheses."},
{"property": "C59", "status": "proved", "theorems": ["C59_matrix", "C59_basis", "C59_run"], "note": "C59_matrix: normal forms as a contract; C59_run: with the modelled computation of normal forms (C61)."},
{"property": "C60", "status": "proved", "theorems": ["C60_sound", "C60_points", "C60_empty", "C60_unique", "C60_terminates"], "note": "Composition of the models of core_f4, monomial_basis, build_matrixn, core_nf and fglm. The case of a zero constant coefficient in the inversion of the Hankel matrix is the answer Special, of which only the minimal polynomial is described; C74 shows what the program does then."},
{"property": "C61", "status": "proved", "theorems": ["C61_sound", "C61_terminates", "C61_canonical", "C61_membership"], "note": "Any monic basis; membership for bases returned by the modelled basis computation. Trace recording left out."},
{"property": "C62", "status": "proved", "theorems": ["C62_total", "C62_sound", "C62_exact"], "note": "Termination is not claimed: the loop ends when the basis is checked or the primes end. The trace application which produces the images is C43/C50; the storage of the images (modpgbs_set) is represented by lists of residues. C62_bound_needed shows that success alone does not determine the coefficients."},
{"property": "C63", "status": "proved", "theorems": ["C63_sound", "C63_exact", "C63_meaning", "C63_witness"], "note": "The loop after the learning prime with all its branches except the lifting of the multiplication matrix (lift_matrix = 0, the default). No claim that it never divides by zero: a guessed denominator that is a multiple of the modulus leads to a division by zero in the model. The examples C63_bound_needed and C63_zero_image_unchecked show what is not checked."},
{"property": "C64", "status": "proved", "theorems": ["C64_ff", "C64_lead_ff", "C64_qq"], "note": "The reader is the model of C36. Modulo p: print_gb = 1 and 2, normal forms too. Over Q: the basis as lifted by C62 (positive leading coefficient, monomial list starting with 1). C64_lead_one, C64_empty_ff: the leading ideal of the whole ring is printed as [], a basis without elements as an open bracket."},
{"property": "C65", "status": "proved", "theorems": ["C65_images", "C65_vector_polynomial", "C65_export", "C65_uninitialised"], "note": "Storage never fails and is exact, for every value of the uninitialised field dlift->S up to the third column; the refutation for that column is C65_uninitialised. Bases computed by F4 are the input; truncate_lifting is not modelled."},
{"property": "C66", "status": "proved", "theorems": ["C66_unambiguous", "C66_special", "C66_solutions", "C66_real_solutions"], "note": "Text of the solutions: grammar of nested lists with unique reading, special cases, parametrisation and boxes as held in memory, composition with C34 for the real solutions. The hypothesis that exponents of boxes are not negative is met by all boxes computed (C34); the linear form is related to the system in C56."},
{"property": "C67", "status": "proved", "theorems": ["C67_blocks", "C67_safe", "C67_terminates", "C67_sound", "C67_exact_or_hidden", "C67_rarely_hides"], "note": "All draws and all schedules. rand() values are arbitrary nonnegative integers; uniformity of rand() is not modelled, the bound is a count of multiplier vectors. Characteristics of 2^31 and above (32 bit kernel) are not covered."},
{"property": "C68", "status": "proved", "theorems": ["C68_safe", "C68_terminates", "C68_same", "C68_echelon"], "note": "Sparse reduction, choice of pivots, racing dense rows with compare-and-swap, dense inter-reduction and conversion for the 8, 16, 17 and 31 bit kernels; equality with the sparse variant by uniqueness of the reduced echelon form."},
{"property": "C69", "status": "proved", "theorems": ["C69_same_basis", "C69_learn", "C69_refused", "C69_overrun"], "note": "The full F4 loop with the dense linear algebra; the recorded trace is compared with that of the exact sparse variant. The overrun is shown on a system with ten productive rounds."},
{"property": "C70", "status": "proved", "theorems": ["C70_elimination", "C70_unique", "C70_images", "C70_zero"], "note": "For every run of the F4 model (C23) with 0 < nev < nv and reduction: ideal, Groebner, reduced, sorted; equality with the run in the other variables; link to the storage model of C65 for runs modulo several primes. The zero elimination ideal gives an access out of bounds (C70_zero)."},
{"property": "C71", "status": "proved", "theorems": ["C71_basis", "C71_finite", "C71_lucky", "C71_trace", "C71_lift"], "note": "Existence and uniqueness of the basis over Q, finiteness of the bad primes, F4 and trace results modulo good primes, coefficients after lifting; the final check of the code is probabilistic, so the bound on the product of the primes is a hypothesis."},
{"property": "C72", "status": "proved", "theorems": ["C72_sound", "C72_saturated", "C72_unit", "C72_same", "C72_nonmonic_refuted", "C72_nopairs_refuted", "C72_overflow_refuted"], "note": "Partial correctness of whole runs (Ok results of core_f4sat), all schedules and draws; the refuted theorems are runs of the model showing that the result need not be the saturation and that the arrays of leading monomials overflow. Termination is not claimed."},
{"property": "C73", "status": "proved", "theorems": ["C73_staircase", "C73_first", "C73_tight"], "note": "staircase enumeration of f4sat.c with the sizes of its arrays; the degree loop by invariants on the index array"},
{"property": "C74", "status": "proved", "theorems": ["C74_when", "C74_same", "C74_out_of_bounds", "C74_large", "C74_wrong"], "note": "When the branch is taken (kernel of the shifted Hankel matrix), and that it reads out of bounds, shifts by a negative number for D >= 4, and returns wrong coordinates for D = 3 in an example, for every content of the extra entry."},
{"property": "C75", "status": "proved", "theorems": ["C75_points", "C75_finite", "C75_unique", "C75_step", "C75_normal", "C75_lift", "C75_boxes"], "note": "rational_param and represents are in RurSpec; C75_finite and C75_normal: all primes but finitely many are good; C75_step: what is computed modulo a good prime; C75_lift: the end of the lifting; C75_boxes: the boxes. Existence of a rational parametrisation is a hypothesis; a complete run for 2xy-4y-3, y^2-3x is in RurEx."},
{"property": "C76", "status": "proved", "theorems": ["C76_finite", "C76_answers", "C76_empty", "C76_one_prime", "C76_bad_refuted"], "note": "good_reduction, qunit and qfree are defined in RexProps; C76_bad_refuted: a bad prime gives a wrong answer; concrete cases (2x^2-y, 3xy-1 and 2x-1, 2x-3 modulo 101) in RexEx."},
{"property": "C77", "status": "proved", "theorems": ["C77_answer", "C77_field", "C77_points", "C77_complete", "C77_lost_refuted", "C77_false_refuted", "C77_unverified_refuted", "C77_overrun"], "note": "Setting, contracts of FLINT's functions and luck are hypotheses (NsSpec, NsRun, NsProps); the contracts are met by functions defined in NsEx. C77_lost_refuted, C77_false_refuted, C77_unverified_refuted, C77_overrun: counterexamples to the stronger statements (NsCase); C77_lost_refuted meets all hypotheses of C77_field and C77_points, C77_complete_case those of C77_complete."},
{"property": "C78", "status": "proved", "theorems": ["C78_reduces", "C78_empty", "C78_positive", "C78_shape", "C78_multiple", "C78_small_prime_refuted"], "note": "Driver over a prime field (import, attempts, restarts) composed of the models of C37, C39/C40, C51, C77; the answer for any start vector of full degree is new (DrvShape). Full statement false for p <= n: C78_small_prime_refuted."},
{"property": "C79", "status": "proved", "theorems": ["C79_readable", "C79_basis", "C79_terminates", "C79_canonical", "C79_normal_forms", "C79_zero_block_refuted", "C79_zero_ideal_refuted"], "note": "Library calls with arrays in and arrays out: unique reading of the arrays, basis, termination, canonicity, normal forms; two refutations (block order with a zero normal form; zero ideal). Hypotheses: not LEX (C51), sorting routine sorts, at most 2^31-1 terms come out."},
{"property": "C80", "status": "proved", "theorems": ["C80_readable", "C80_readable_points", "C80_param", "C80_linear_form", "C80_no_param", "C80_prime_field_refuted", "C80_failed_refuted", "C80_failed", "C80_names_refuted"], "note": "Export of parametrisation, linear form and boxes; unique reading; no answer; refutations for prime fields, failures and names. The computation itself enters as its result (C63, C75, C76, C34)."},
{"property": "C81", "status": "proved", "theorems": ["C81_input", "C81_no_solution", "C81_boxes"], "note": "Composition of the import over the rationals (C37, C45, C51), the restarts (C39, C40), the parametrisation (C75) and the boxes (C34). The hypothesis represents is the conclusion of C75_lift. The exchange of coordinates is modelled for runs in which no parametrisation is asked for."},
{"property": "C82", "status": "proved", "theorems": ["C82_reduce", "C82_echelon", "C82_same_rows", "C82_ab_first", "C82_interreduce", "C82_shared_refuted"], "note": "Proved for all matrices and schedules: termination, row space, reduced primitive form, independence of the schedule, of the order of the rows and of the option. The interreduction is right without shared arrays (C82_interreduce) and always undefined with them (C82_shared_refuted); the concrete basis y^2-2, x^3+xy^2 is in QlaEx."},
{"property": "C83", "status": "proved", "theorems": ["C83_command_line", "C83_order", "C83_numbers", "C83_numbers_refuted", "C83_isolate_refuted", "C83_start", "C83_same_file_refuted", "C83_binary_refuted", "C83_not_found"], "note": "getopt and strtol of the C library, getoptions and main up to the call of core_msolve; counterexamples for large numbers, -I, output equal to input, -F"},
{"property": "C84", "status": "proved", "theorems": ["C84_compare", "C84_vector", "C84_vector_one", "C84_swap_refuted", "C84_lost_refuted", "C84_one_refuted", "C84_row", "C84_left", "C84_short_refuted"], "note": "comparison, merge loops and the check of build_matrixn_colon_no_zero; counterexamples for monomials in the first two variables, lost largest term, single terms and short normal forms"},
{"property": "C85", "status": "proved", "theorems": ["C85_compact", "C85_basis", "C85_profile"], "note": "FLINT's transposition and nmod_mat_nullspace are not modelled: their documented result is the hypothesis (record kernel, with an instance). In the pinned sources the routine is called from the approximant basis code only (C86)."},
{"property": "C86", "status": "proved", "theorems": ["C86_basis", "C86_early_refuted", "C86_zero_refuted", "C86_order"], "note": "Module statement: containment, generation, uniqueness. Minimality with respect to the shift and the final shift values are not treated. FLINT's kernel enters by its documented result, as for C85. The unit is compiled into the program by fglm_core.c; no call from the solver exists at the pinned commit."},
{"property": "C87", "status": "proved", "theorems": ["C87_product", "C87_basis", "C87_threshold", "C87_low_refuted"], "note": "The exceptional flag returned by the model is a ghost value: it records a zero matrix or an early exit in a call of the iterative routine. FLINT's products, truncations and shifts of matrices of polynomials are their definitions; the left nullspace is any function meeting the contract of C85."},
{"property": "C88", "status": "proved", "theorems": ["C88_iterative", "C88_product", "C88_divide", "C88_degree", "C88_minimal", "C88_zero_refuted"], "note": "Models of C86 and C87. That rows are only added to later rows in the order of the shift comes from the echelon form in the kernel contract of C85."},
{"property": "C89", "status": "proved", "theorems": ["C89_truncate", "C89_copy", "C89_shift_in_place", "C89_shift_to", "C89_shift_to_refuted", "C89_constant_refuted"], "note": "Library routines: the shift and the test for constants have no caller in the sources at this commit. A coefficient is an element of any type with a zero and a test for it."},
{"property": "C90", "status": "proved", "theorems": ["C90_homogeneous", "C90_elimination", "C90_elimination_refuted", "C90_again", "C90_degrees"], "note": "Exponents and degrees are unbounded in the model. The flag is printed among the statistics, read by the check of msolve.c l.3604-3608 and used for the degree fall heuristics of convert.c l.748-755."}
]}
