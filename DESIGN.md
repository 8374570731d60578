# Design of the formal model of msolve

Formal model and proofs in Rocq (Coq 8.16.1) of parts of algebraic-solving/msolve.  Sources are under
`rocq/theories`.  For each area there is a `*Model.v` file (definitions only, each with a comment
citing the C file and lines it models), one or more `*Proofs.v` files, and a `*Props.v` file that only holds the
property theorems, a non-vacuity `Example` for each, and `Print Assumptions`.

## Conventions

* GMP integers (`mpz_t`) are modelled by `Z` exactly; machine integers by `Z` with explicit range checks or
  explicit wrap-around, as stated at each definition.
* C undefined behaviour (signed overflow, division by zero, out-of-bounds access) is a distinct outcome
  (`None` or an `Err` constructor); theorems show it does not occur under the stated preconditions.
* Loops without an obvious structural measure take fuel and return a distinct value when fuel runs out.

## Plan per property

* **C01** Modular inverse is exact, total and overflow free — Model the three C functions over Z with explicit signed-range checks (result `None` on overflow/UB). Prove by the Euclid invariant |c|,|d| <= p/..., termination by fuel = p bits bounded by measure; result equals the inverse.
* **C02** One CRT step gives the canonical lift — Model `_mpz_CRT_ui_precomp`/`mpz_CRT_ui` over Z (GMP exact); FLINT's n_gcdinv is a parameter with its contract as hypothesis, instantiated by a concrete inverse. Prove congruences and range.
* **C03** Incremental CRT over any list of primes recovers the integer — Fold of the C02 model over lists of (residue, prime); prove by induction with uniqueness of CRT.
* **C04** Rational reconstruction is sound — Model `ratrecon`, `_mpq_reconstruct_mpz_2` loops over Z; EEA invariants.
* **C05** Rational reconstruction is complete and unique — Classical lattice argument |n d' - n' d| < m plus monotonicity of remainders; induction over the EEA.
* **C06** Reconstruction with a guessed denominator, then normalisation, still yields a representative of the residue — Model `ratreconwden`, `reconstructcoeff`.
* **C07** Vector reconstruction returns one common denominator — Model `rational_reconstruction_mpz_ptr` with an array state and the remembered index.
* **C08** Prime generation — Model with uint32 wrap; prove exactness against Znumtheory.prime.
* **C09** Modular check of a lifted rational is exact — Model `verif_coef`, `check_lifted_coeff`, `check_unit_mpz_nmod_poly` on top of C01.
* **C10** Monomial comparison is a total order compatible with multiplication — Model comparators on lists of exponents (with layout [deg; ...]); prove order laws for all lengths.
* **C11** Monomial orders are well founded — Well-foundedness (Dickson / accessibility by lexicographic products).
* **C12** Block order eliminates — From the C10 model.
* **C13** Monomials are interned: equal index iff equal exponents, over any history — Abstract hash table state (hmap, ev, eld, hsz); invariants; triangular probing is a permutation mod 2^k; refinement to a finite map.
* **C14** Hash of a product is the sum of hashes — Linear hash modulo 2^32.
* **C15** Divisor masks never reject a true divisor — Model the divmask tables, bit per threshold; testbit reasoning.
* **C16** lcm and coprimality are exact — List model.
* **C17** Exponent layout round trip — List model with uint16 wrap.
* **C18** Row reduction never overflows — int64 accumulator model with explicit range; invariants per kernel.
* **C19** Row reduction only subtracts known pivot rows — Congruence modulo the span of pivot rows.
* **C20** Parallel echelon form loses no row, for every schedule — Small-step transition system: shared pivot array, per-row private state; invariant over all interleavings.
* **C21** Parallel echelon form is deterministic — Uniqueness of reduced echelon forms applied to C20.
* **C22** Pair update discards only useless pairs — Polynomials over a prime field as coefficient functions, standard representations, chain criterion.
* **C23** The computed basis generates the input ideal and is a Groebner basis — whole engine modelled (F4Model); Buchberger criterion, Dickson's lemma for termination, row space theorem of C20 for the matrices, uniqueness of reduced bases for independence of kernel, schedule, ties and number of selected pairs.
* **C24** The staircase enumeration is exact — List model of the three functions with the index table.
* **C25** The staircase enumeration stays in its buffer — Counting argument injected in the C24 model (buffer as an explicit bound).
* **C26** Zero-dimensionality test — List model.
* **C27** Taylor shift — Z-polynomials as lists; Horner/evaluation semantics.
* **C28** Truncated Descartes test is sound — Error bound of truncation with binomial sums.
* **C29** Descartes count bounds real roots — Over R: multiplying by x - r adds a sign change; induction on the list of roots; parity and the intermediate value theorem for existence.
* **C30** Root bound — Over R: the sum of the terms of opposite sign is a geometric sum below the leading term.
* **C31** Real root isolation is complete and correct — Recursive bisection model with fuel; invariant relating current polynomial to the original by an affine change of variable. Termination: on small enough intervals the number of sign changes is at most one (explicit separation argument), and the exit(1) branches are unreachable.
* **C32** Root refinement keeps the root — State model of the QIR loop with arbitrary guesses.
* **C33** Dyadic evaluation is exact and interval evaluation encloses — Z/R models of the evaluators.
* **C34** Printed boxes contain the solutions — Interval division, table of powers, C33 for the denominator, C32 for one refinement; termination by a convergence lemma (the bounds of the denominator are within C 2^-k of its value even where they fail to enclose it). Three refutations of the unrestricted claim.
* **C35** Normalising printed dyadics keeps their values — Z model.
* **C36** Input files — a file is a list of characters; spec: terms and their text; model: the functions of iofiles.c from the file to the arrays; proved for every text of the format, `_refuted` theorems for what the code does not accept or reads wrongly (multiline polynomials, fractions modulo p, explicit zeros, ...).
* **C37** Imported coefficients are the residues of the given ones — Z model with int32 conversions; `_refuted` where the code disagrees.
* **C38** Kernel selection matches the characteristic — Z model with int32 conversion.
* **C39** Trying variable orders is reversible — Array model.
* **C40** Adding a linear form extends the system without changing it — Array model.
* **C41** Minimal basis extraction — invariant of the pair update (every redundant element is dominated by a non-redundant one) for all histories.
* **C42** Symbolic preprocessing is closed — Worklist model; invariant plus finiteness of the closure for termination; for all states of the main loop.
* **C43** Learning trace keeps every reducer that was used — Bit-array model of `construct_trace`; the learning run refines the ordinary run (the recording projects away); replay: the kept rows span what the kept new elements need, echelon forms are unique.
* **C44** Copying a basis modulo a prime is a ring homomorphism image — Z model.
* **C45** Content removal — Z model.
* **C46** Normalisation makes rows monic without leaving the line — List model on top of C01, unrolled loop modelled explicitly.
* **C47** Minimal polynomial recovery — polynomials over Z/p as lists up to congruence, with a `ring` instance; Euclid invariants (Bezout relation, determinant, degrees), preserved by the half-gcd branch and by adding points; minimality from coprimality of the Bezout cofactors.
* **C48** Duplicating trace data for threads preserves the original — heap of arrays; closed form of the heap after the copies; the masks are overwritten (swapped arguments), shown harmless for the division test.
* **C49** Sorting comparators are consistent — Comparator models.
* **C50** Trace application detects every bad prime it claims to detect — Round loop with the real linear algebra model at the new prime; leading monomials agree by induction over the rounds; lucky-prime criterion through uniqueness of reduced bases; counterexample for a trace learned at a bad prime.
* **C53** Vectorised kernels equal the scalar kernel — Same pointwise update of the columns of the row; lane groups as lists of positions.
* **C51** Input polynomials are stored with decreasing terms — import model, sort_r as a contract, comparators of C49; counterexample for the lexicographic order.
* **C52** The permutation of the terms is applied to coefficients and monomials alike — cycle loop of sort_terms, invariant on visited positions.
* **C56** The linear form shown is the one used — printed fractions against the coefficients in the reachable states; counterexample for a power form after a random form.
* **C57** Products by the multiplication matrix are exact — machine-word model of both kernels; accumulator bounds by induction over the blocks; table invariant over the steps of the sequence.
* **C58** The parametrisation modulo p parametrises the ideal — Berlekamp-Massey (C47) on the sequence; nonsingular Hankel matrix from minimality; Gohberg-Semencul inversion formula for the two cofactors; the first rows of the powers of the matrix turn coordinates into elements of the ideal; linear variables by substitution. Dimension one (every variable leading in a linear form) and last variable leading in a linear form are treated separately. Non-vacuity: complete examples, one with an independent basis.
* **C55** The table of linear forms holds the linear elements of the basis — the scan of the leading monomials and the row loop as folds; in a reduced basis a dense linear element excludes every other one, so the row counter that is not advanced does no harm; counterexample for a basis that is not reduced.
* **C59** The matrix built from a Groebner basis is the multiplication matrix — order isomorphism between the standard monomials mapped to leading monomials by the last variable and the leading monomials divisible by it; the merge of sorted terms; standard monomials are independent (Groebner basis) and spanning (well-founded reduction).
* **C61** Normal forms are correct, canonical and decide ideal membership — the worklist of C41/C42 without marked leads, one reduction by the known pivots per row (C19), columns right of the pivots are the irreducible monomials; uniqueness from the leading monomial of a difference; gives the contract of C59.
* **C62** Lifting of a Groebner basis over Q — state invariant over the rounds (which primes the stored lift agrees with, which later prime checked it), reusing the specifications of CRT and rational reconstruction; exactness from the product of the primes.
* **C63** lifting of a parametrisation over Q — `QparModel.run`; invariant over the consumed primes (CRT values congruent to the images, lifted parts congruent to an initial part of them), then the check at the last prime; exactness by divisibility by the product of the primes; meaning through the normalisation by the derivative.
* **C64** A printed Groebner basis can be read back — model of the printing functions; the printed text is shown to be a text of the grammar of ParseSpec that denotes the polynomials, then C36 gives the round trip.
* **C65** dense storage of images, export — model of the arrays with uninitialised cells; search from the end of a sorted list; invariant over the rounds (length of the arrays, columns); the list of monomials from C24.
* **C66** text of the solutions — relation between values and texts (nested lists), unique reading by cutting at separators; the printing functions spell the expected value; composition with C34.
* **C67** probabilistic linear algebra — transition system with one state per block, invariants of the exact variant for the row in work, exchange lemma for blocks that never draw zero, injection argument for the number of bad draws.
* **C68** Dense linear algebra — the phases of the function as total functions, the parallel loop as an interleaving of row steps; invariant: pivots monic and spanned by the rows of the matrix, unfinished rows congruent to their row modulo the pivots; equality with the sparse variant by uniqueness of the reduced echelon form.
* **C69** F4 with option -l 1 — the F4 loop with the dense linear algebra, with and without recording; equality with the runs of C23 and C43 round by round; the recorded rounds are blank, hence refused.
* **C70** Elimination — elements of a block-order Groebner basis free of the first block (elimination theorem proved from the definition of Groebner bases), then the runs of C23 and the storage of C65.
* **C71** Bases over the rationals — Groebner bases over Q with integer coefficients (pseudo-division, Dickson for existence), certificates of the S-polynomials reduced modulo p, uniqueness of reduced bases; then C23, C50 and C62.
* **C72** Saturation — invariant of the whole run: the basis is an F4 state (C23) for a growing list of generators, each taken into the input ideal by a power of phi; every row of the saturation matrix is its multiplier times phi modulo the ideal; kernel vectors by tracking multipliers through the elimination, inter-reduction by C67; the test by C67 on a weaker invariant, 1 in (I, phi) gives I : phi = I.
* **C73** Staircase of the saturation — invariant of the degree loop: block k of a degree holds the standard monomials whose last variable is number nv-1-k, the index array holds the starts of the blocks; allocation: m ↦ m divided by its first variable counts the kept entries.
* **C74** Rare branch of the Hankel inversion — the branch modelled completely; taken iff the shifted matrix is singular (first column of the inverse); a negative shift for D >= 4 by the degrees; wrong coordinates by uniqueness of the coordinates (independence) and computation over all contents of the extra entry.
* **C75** Parametrisations over the rationals — a parametrisation (E, c_k / e_k) generating the ideal over Q; all primes but finitely many are good (denominators of the two membership certificates); image modulo a good prime generates the ideal there (substitution x_k := -c_k gives the univariate elements), so C60 and uniqueness apply; pseudo-division of c_k E' by E over Z for what is lifted, C63 for the lifting, values in every ring of characteristic zero, C34 for the boxes
* **C76** Answers at one good prime — the reduced basis over Q is given by C71; its image is the basis modulo p, so membership over Q gives membership modulo p and independence modulo p gives independence over Q; a parametrisation modulo p makes 1, T, ..., T^(D-1) a basis of the quotient over Q too (dimension counting by pivots), which gives the rational parametrisation; squarefree modulo p gives separable over Q by Bezout.
* **C77** Answers out of shape position — model of the branch (the numerators, the inverse modulo E, the check of the squares); the numerators of two sequences sharing the annihilator V determine Q times the coordinate modulo V, so dividing by Q gives the coordinate modulo E in (I : Q); composed with the basis, the matrix and the sequence as for C60; points by evaluation; counterexamples by computation, luck of the start vector shown by hand with a point over the dual numbers.
* **C78** Solving over a prime field, through all restarts — invariant of the attempts (C39, C40) strengthened by the coefficients of the linear form being units modulo p; the import (C37, C51) turns such a system into polynomials in standard form with the same zeroes; one attempt: case analysis of the answer without any hypothesis on the start vector (DrvShape), or C77 for lucky vectors; counterexample for p <= n by running the model.
* **C79** Library calls that exchange arrays — the caller's arrays denote a list of polynomials in one way (specification without the code); import by C37 and C51, basis by C23, normal forms by C61, then induction over the filling of arrays with a capacity. The two failing cases are theorems.
* **C80** Solving through the library — specification of the flat arrays with unique reading; the export fills arrays with a capacity; the linear form by the invariant of the restarts (C40); failing cases as theorems about all calls.
* **C81** Solving over the rationals through all restarts — import modelled by `q_input`; every imported polynomial is a nonzero multiple of the one given, in standard form; same zeroes; composed with C39, C75 and C34.
* **C82** Linear algebra over the integers — model of la_qq.c with rows of integers and any schedule; rational span as "a nonzero multiple is an integer combination"; invariant: every row is kept up to nonzero multiples and pivot rows; uniqueness of primitive reduced families gives independence of schedule and option; interreduction with a store of coefficient arrays, wrong exactly when an array is shared.
* **C83** The command line — grammar of words as inductive relations, shown to have exactly one reading; loop over the options related to the last occurrence of each letter; disk as two maps.
* **C84** Vectors and rows for -C — merge of two ascending lists by induction on the columns, with the bound of the inner loop; exact conditions and counterexamples.
* **C85** Left nullspace modulo a prime — the array of indices is followed write by write (invariant: gaps written so far, gaps to come, pivots); the expanded matrix is shown to be the transposed kernel; basis, uniqueness and rank profile follow from the echelon form.
* **C86** Approximant bases — invariant of the loop: the current rows are a basis of the module of the current order and the coefficients beyond the length are zero; one round is an identity between products with the old and the new rows, with the coordinates given by the left nullspace (C85); the two exceptional exits are refuted.
* **C87** Divide and conquer for approximant bases — product theorem for bases of two successive orders by associativity of the product of polynomial matrices; induction on the order; rows divisible by x^order for vanishing low coefficients, by the same induction.
* **C88** Weak Popov form — invariant of the rounds (shifted degrees of the rows, monic entry on the diagonal, smaller degrees to the right of it), a product lemma for divide and conquer, and predictable degrees by taking the last row of maximal degree.
* **C89** Polynomials with matrix coefficients as data — exact contents after each loop (copies, exchanges, zeros) by induction on the number of steps, with bounds checks in the model; the shift into another polynomial and the test for constants are refuted.
* **C90** Degrees and homogeneity of the input — induction over terms and generators; exact condition for the flag with and without elimination, from which the refutation follows.
* **C60** The computation modulo one prime describes exactly the solutions — composition of C23, C24-C26, C55, C59, C61, C57, C58; a parametrisation whose polynomial generates the elimination ideal generates the ideal (every monomial is a polynomial in the last variable modulo it), uniqueness by division; values at points of an arbitrary ring by the universal map from the integers; termination by monotonicity in the fuel.

## Trusted base

Coq 8.16.1 kernel; the axioms printed by `Print Assumptions` under each property theorem (see the section
"Axioms" below); the reading of the C sources that the model comments document.  GMP and FLINT functions are modelled by
their documented mathematical meaning.

## Axioms

Every theorem of the files ModInvProps, CrtProps, LiftProps, PrimesProps, MonoProps, HashProps, LaProps and HilbProps
is closed under the global context (no axiom at all).

The theorems about real numbers (DescProps, IsolProps, EvalProps, RefineProps, BoxProps) use the standard library's construction of
the reals. `Print Assumptions` lists for them at most the standard library axioms `ClassicalDedekindReals.sig_forall_dec`,
`ClassicalDedekindReals.sig_not_dec`, `FunctionalExtensionality.functional_extensionality_dep` and (for C31_total, C31_correct and C32)
`Classical_Prop.classic`. Nothing else is assumed.

## What is modelled

| Area | Files | C code modelled | Left out |
|---|---|---|---|
| modular inverse | ModInv* | `mod_p_inverse_8/16/32` (neogb/tools.h, la) | — |
| CRT, rational reconstruction | Crt* | `mpz_CRT_ui`, `ratrecon`, `ratreconwden`, `_mpq_reconstruct_mpz_2` | FLINT's word-size inverse is taken by contract |
| lifting | Lift* | vector reconstruction, modular checks of lifted data | memory allocation, printing |
| primes | Primes* | `is_prime`, `next_prime`, prime selection loop | the random starting value is an arbitrary input |
| monomials | Mono* | exponent layout, comparators, divmask, lcm, coprimality, products | signature comparators |
| hash table | Hash* | insertion, re-insertion, product insertion, enlargement, cleaning, reinitialisation | concurrent insertion (PARALLEL_HASHING is 0), failing allocation, the `idx` field |
| linear algebra | LinSpec, La* | scalar and vectorised row kernels (8, 16, 17, 31 bit), extraction, normalisation, `exact_sparse_reduced_echelon_form_ff_*` as a transition system over all schedules with compare-and-swap, inter-reduction | probabilistic variants, dense variants, normal form mode (nf > 0), trace data, statistics, bad_prime flag; the compare-and-swap and the reads of pivs[i] are taken as atomic (sequential consistency of the pivot array) |
| staircase | Hilb* | `has_dimension_zero`, `is_pure_power`, divisibility tests, `generate_new_elts_basis`, `update_indices`, `sum`, `monomial_basis` and its three degree-bounded variants, with the capacity of the work buffer and the 32-bit index sum | allocation failure; flat arrays are lists of rows; lengths are unbounded naturals |
| Taylor shift, Descartes test | PolySpec, Poly*, Taylor*, Desc*, RootProofs | `taylorshift1_naive`, `taylorshift1_dac`, `taylorshift1_dac_wsgnvar`, `compute_shift_pwx`, `compute_degpower`, `mpz_poly_remove_binary_content`, `rescale_upoly_2exp`, `mpz_poly_sgn_variations_coeffs*`, `descartes`, `descartes_truncate` | `descartes_classical` (not used by `real_roots`), FLINT multiplication is exact, the parallel loops write disjoint blocks and are run in order |
| real root isolation | Isol* | `bound_roots`, `USOLVEmpz_poly_rescale_normalize_2exp_th`, flags and shift tables, `is_half_a_root`, `numer_quotient_uint`, `manage_root_at_one_half`, `is_zero_root`, the cases 0, 1, 2 and default of the bisection, `bisection_rec`, `merge_root`, `bisection_Uspensky`, `real_roots` | `assign_sign_left`, statistics, timing, the flags search and hasrealroots (0 in `real_roots`); machine size of exponents (long) |
| evaluation | Eval* | `basic_mpz_poly_eval_at_point`, `mpz_poly_eval_2exp_naive`, `mpz_poly_eval_interval`, `mpz_scalar_product_interval` | `lazy_mpz_poly_eval_interval` (unused), `mpz_poly_eval_2exp_naive2` |
| interval refinement | Refine* | `USOLVEnumer_quotient`, `index_linearinterp`, `refine_root_by_N_positive_k`, `refine_root_by_N_negative_k`, `refine_QIR_positive_root`, `get_values_at_bounds`, `remove_exact_roots_by_division`, `refine_QIR_roots_adaptative`, `real_roots` | `refine_all_roots_naive` (classical_algo is 0), statistics, timings, machine size of exponents and precisions; the exit of the search loop by maxindex is an error in the model, shown unreachable |
| output boxes | Box* | `single_exact_real_root_param`, `generate_table_values_full`, `newvalue_denom`, `lazy_single_real_root_param`, `normalize_points`, `extract_real_roots_param` (msolve.c l.2654-3210) | long and int64_t exponents are unbounded integers; the working copy of the eliminating polynomial; printing, timing |
| genericity handling | Input* | msolve.c l.122-171 (linear form shown), l.429-729 (variable order, linear forms), l.3394-3416 (reported coordinates), the restart decisions l.4103-4148 and l.4761-4825, initial values iofiles.c l.888-898 | messages, int32 offsets, the solving attempt itself (only its outcome b = 1 or 2), b = -4 |
| import of the input | Import* | io.c `check_ff_bits`/`set_ff_bits` l.599-637, `validate_input_data` l.640-764 (errors and invalid generators), `check_and_set_meta_data` l.799-810, `import_input_data` l.251-451, `sort_terms_*` l.58-249, engine.c `initialize_gba_input_data` l.54-84, basis.c `copy_basis_mod_p`, `remove_content_of_initial_basis`, msolve.c `reduce_generators` | option corrections, degrees and homogeneity, hashing of the monomials (Hash*), sort_r (assumed to return a sorted permutation), `normalize_initial_basis` |
| Pair update | Gb{Spec,Proofs}, F4Model, Upd{Proofs,Props} | insert_and_update_spairs, update_basis_f4 (update.c l.64-219, 275-352), spair_cmp_update | hash table indices (C13), int32 overflow of degrees, saturation variants |
| F4 engine | Dickson, F4Rows, Symb*, Sel*, Mat*, GbIdeal, Round*, Final*, F4Props | `core_f4` (f4.c l.667-732) with `initialize_f4`, `select_spairs_by_minimal_degree` (symbol.c l.198-400), `symbolic_preprocessing` and `find_multiplied_reducer` (l.491-630), `convert_hashes_to_columns`, row sorting (order.c l.29-81), the echelon form of La*, conversion back, `update_lm`, `final_remove_redundant_elements`, `reduce_final_basis`, `normalize_initial_basis` | `Limit` stands for a monomial of total degree 2^16 or more and for matrices with more columns than the 8, 16 and 17 bit accumulators allow; exact sparse linear algebra (the default options 2 is modelled by La*, the probabilistic and dense variants are not); sort_r is any function returning a sorted permutation; tracing, saturation, elimination of the first block from the output, statistics; hypotheses of every theorem in the record `cfg_ok` (RoundProofs.v): prime p in the size class of the kernel, positive mnsel, fair schedule |
| tracer | Trace* | learning: `core_f4` with LEARN_TRACER, recording of used reducers in the sparse reductions (la_ff_32.c l.985-1036, 1649-1694), `construct_trace` (tools.c l.41-154), tags of the rows (symbol.c l.289-383, 491-630); application: `generate_matrix_from_trace` (symbol.c l.632-705), comparison of number and leading monomials (f4.c l.414-476), rejection of vanishing rows (la_ff_32.c l.2588-2763), final reduction with the learned positions | statistics, degrees of rounds, divisor masks of kept elements, the 16-bit kernel (records nothing), the separate driver modular.c |
| Berlekamp-Massey | FpSpec, FpProofs, NmodModel, Bm* | nmod_berlekamp_massey_reduce_modif, nmod_em_gcd, add_points, start_over, compute_elim_poly; FLINT nmod_poly operations by schoolbook algorithms (trusted to agree) | nmod_em_gcd_preinstantiated; behaviour of FLINT half gcd outside its documented precondition (second argument 0), taken as the identity matrix |
| change of order (FGLM) | `FglmSpec`, `FglmModel`, `MatVecProofs`, `SeqProofs`, `HankelProofs`, `ShapeProofs`, `ParamProofs`, `FglmCore`, `FglmProps`, `FglmExample` | the product of the sparse multiplication matrix and a vector, portable and AVX2 kernels with their machine words (linalg-fglm.c l.83-231, l.626-779; sparse_mat_fglm_mult_vec), generate_sequence_verif with its table, compute_minpoly, invert_hankel_matrix for a nonzero constant coefficient, solve_hankel, compute_parametrizations, set_param_linear_vars, nmod_fglm_compute_trace_data for quotients in shape position | FLINT arithmetic as its contract (NmodModel) and its squarefree factorisation as a parameter with a contract; the branch of invert_hankel_matrix for a zero constant coefficient (result `Special`); ideals not in shape position; nlins = nvars; the construction of the matrix from the basis (its meaning is the hypothesis `mult_matrix`) |
| matrix and linear forms from a basis | `BuildModel`, `StairProofs`, `BuildProofs`, `BasisProofs`, `LinTabProofs`, `BuildProps` | `check_and_set_linear_poly_32` (linear.c l.340-403), `build_matrixn_unstable_from_bs_trace` with its staircase classification, thresholds and row copies (hilbert.c l.489-499, 643-672, 1164-1304, 3471-3884) | `core_nf` in C59_matrix (contract `nf_contract`, met by the model of NfModel, theorem C59_run), statistics and printing, the variants without `bs` |
| normal forms | `NfSpec`, `NfModel`, `NfProofs`, `NfProps` | `core_nf` (nf.c l.55-105), `select_tbr` (symbol.c l.449-488), the linear algebra with `st->nf = 1`, `return_normal_forms_to_basis` (convert.c l.552-627) | the hash table (C13), the loop over the rows is a map, recording of a trace, `export_nf` (nf.c l.108-220) |
| one modular step | `StepSpec`, `StepModel`, `StepProofs`, `ParamIdeal`, `PointSpec`, `PointProofs`, `F4Fuel`, `StepProps` | `initial_modular_step` (msolve.c l.1543-1665, print_gb = 0), `check_for_single_element_groebner_basis` (l.1511-1541), calling the models of `core_f4`, `check_and_set_linear_poly`, `has_dimension_zero`, `monomial_basis`, `build_matrixn`, `fglm` | statistics, printing, the data kept for further primes, FLINT (contract `sqf_contract`) |
| reading of input files | `ParseSpec`, `ParseModel`, `ParseProofs`, `ParseProps` | iofiles.c from the file to names, characteristic, coefficients and exponents: `get_nvars`, `get_ngenerators`, `get_variable_name`, `get_characteristic`, `get_number_of_terms`, `get_term`, `store_exponent`, the readers of coefficients modulo p and over the rationals (l.21-63, 362-961) | the arrays are lists of terms; strtol, atol, mpq_set_str, getline, getdelim, fgets as written in `ParseModel` |
| copies for threads | `DupSpec`, `DupModel`, `DupProofs`, `DupProps` | `duplicate_tracer` and the copies of arrays in duplicate.c | structures are records, the arrays of the saturation trace (not copied), the zeroed work arrays and the parametrisations |
| lifting of Groebner bases over Q | `GliftSpec`, `GliftModel`, `GliftProofs`, `GliftRun`, `GliftProps` | lifting-gb.c: `ratrecon_gb` with its checks, incremental and full lifts, bounds, common denominators, the loop over primes | the images are lists of residues per coefficient (storage of `modpgbs_set` not modelled), bad primes and failed traces are inputs without image, timers and threads left out; CRT and rational reconstruction as in the rows above |
| lifting of the parametrisation over Q | `QparSpec`, `QparModel`, `QparProofs`, `QparRun`, `QparProps` | new_rational_reconstruction with its three bounds per coordinate, the witnesses trace and det, check_param_modular, the loop over batches of primes, normalize_nmod_param | lift_matrix = 0; images are inputs; timing decisions are inputs; FLINT polynomials through NmodModel |
| printing of bases | `PrintSpec.v`, `PrintModel.v`, `PrintProofs.v`, `PrintProps.v` | print_msolve_polynomials_ff with header, print_ff_basis_data, print_ff_nf_data, display_monomial(_single), display_modpoly, display_gbmodpoly_cf_qq, display_lm_gbmodpoly_cf_qq, print_msolve_gbtrace_qq | printf and mpz_out_str are decimal digits; a polynomial is a list of coefficients with exponent rows |
| dense storage and export over Q | `DenseSpec.v`, `DenseModel.v`, `DenseProofs.v`, `DenseRun.v`, `DenseProps.v` | compute_length, gb_modpoly_init, gb_modpoly_realloc, modpgbs_set, compute_num_gb, storage parts of gb_modular_trace_learning and gb_modular_trace_application, the reallocations of core_groebner_qq, export_results_from_groebner_qq | the bases that F4 gives are the input; truncate_lifting and print_gb = 1 left out |
| printing of the solutions | `OutSpec`, `OutModel`, `OutProofs`, `OutProps` | mpz_upoly_out_str, mpz_param_out_str(_maple), display_nmod_poly, display_real_point(s), display_output, manage_output | file or standard output, conversion of the degree of the quotient to int, messages, display_arrays_of_real_roots (unused) |
| probabilistic linear algebra | ProbSpec, ProbModel, ProbProofs, ProbProps | la_ff_32.c l.2299-2499, la_ff_16.c l.719-921, la_ff_8.c l.867-1069: blocks, draws, combination of the rows of a block, reduction with retry on a lost compare-and-swap, early stop of a block, inter-reduction | trace construction in the 8 and 16 bit variants, characteristics of 2^31 and above, statistics, freeing of memory |
| Dense linear algebra (option -l 1) | DlaModel, DlaProofs, DlaRun, DlaF4, DlaProps | la_ff_{8,16,32}.c: sparse_AB_CD_linear_algebra, exact_dense_linear_algebra, reduce_dense_row_by_dense_new_pivots, interreduce_dense_matrix, normalize_dense_matrix_row, convert_to_sparse_matrix_rows, exact_sparse_dense_linear_algebra; f4.c compute_new_elements with this linear algebra, add_lms_to_trace without construct_trace | Loop unrolling; sharing of the dense buffers between threads (each row has its own); fc ≥ 2^31; the probabilistic dense variants 42 and 43 |
| Elimination ideals (C70) | ElimSpec, ElimProofs, ElimProps | no new code: the F4 model (C23) with a block order followed by compute_num_gb and the storage of C65 | option -e over prime fields prints the whole basis of the block order (the filter in f4.c is disabled); truncation of the lifting |
| Bases over the rationals (C71) | QgbSpec, QgbProofs, QgbExist, QgbProps, QgbEx | no new code: F4 (C23), traces (C43, C50) and the lifting (C62) related to the reduced Groebner basis over the rationals | the last test of the code (one more prime) does not give the bound, it stays a hypothesis |
| Staircase of the saturation (C73) | SatModel (quotient basis), QuotProofs, QuotProps | f4sat.c l.209-381 (generate_new_basis_elements, update_indices, quotient_basis) with the sizes of its arrays | hash table insertions (C13, C14) |
| Saturation (C72) | SatModel, SatSpec, SatAlg, SatLa, SatKer, SatRed, SatProofs, SatProps | f4sat.c (core_f4sat, is_already_saturated, update_multipliers, is_zero_dimensional), la_ff_32.c l.665-806, 1244-1472, 2765-2998, 3991-4046 (kernel), convert.c l.28-205, 545-640, f4.c l.254-335 (reduce_basis), msolve.c l.3644-3720 | primes from 2^31 on, other linear algebra options, hash indices (update_multipliers reads an entry of the basis hash table with an index of the other table), termination, timings and printing |
| Rare branch of the Hankel inversion (C74) | HspModel, HspProps | fglm_core.c l.252-358, berlekamp_massey.c l.319-447 | as C58 |
| Parametrisations over the rationals (C75) | RurSpec, RurSub, RurProofs, RurLift, RurStep, RurProps, RurEx | msolve.c l.1560-1700, l.2000-2500, l.2860-3100 (through the models of C60, C63, C34) | existence of a parametrisation of the input over the rationals is assumed; heights against the primes used are hypotheses |
| Answers at one good prime (C76) | RexFp, RexProofs, RexGen, RexProps, RexEx | msolve.c l.1560-1700, l.2860-3100 (through the models of C60, C71, C75) | the degree is at most the prime; good reduction is decided by the reduced basis over the rationals |
| Out of shape position (C77) | NumProofs, NsSpec, NsModel, NsProofs, NsSeq, NsPoints, NsEx, NsRun, NsStep, RingEx, NsProps, NsCase | fglm_core.c l.756-852, l.867-1033, l.1116-1360, l.1510-1700; msolve.c l.888-911, l.1543-1665, l.2087-2155 | squarefree factorisation, extended gcd and fit_length of FLINT by contract; luck of the start vector is a hypothesis |
| Driver over a prime field (C78) | DrvModel, DrvShape, DrvProofs, DrvProps, DrvCase | msolve.c l.3567-3577, l.4041-4150, l.1917-1990; data.h l.86 | printing; the import calls initialize of ImportModel; a computation that gives no answer (undefined behaviour, limit, fuel) is None; options: no signatures, saturation, colon, normal form, elimination |
| Library calls (C79) | LibSpec, LibModel, LibProofs, LibProps, LibCase | f4.c l.734-851; nf.c l.114-224; io.c l.454-597; engine.c l.24-122 | allocation, statistics; prime characteristic only; exit(1) is undefined; that the import reduces the coefficient array of the caller in place is not modelled |
| Solving through the library (C80) | JulSpec, JulModel, JulProps | msolve.c l.4838-5107, l.98-105, l.2101-2152, l.3447-3530 | the computation enters as its result; print_gb = 0 and no elimination order (otherwise the exported dimension is not initialised); release of memory |
| Driver over the rationals (C81) | QdrvModel, QdrvProofs, QdrvProps, QdrvEx | msolve.c l.1917-1990 (import, content), l.3385-3420 (coordinates of the boxes that are written) | lifting and isolation are those of Qpar, Isol, Box; printing not repeated |
| Linear algebra over the integers (C82) | QlaSpec, QlaModel, QlaProofs, QlaRow, QlaSys, QlaRed, QlaTop, QlaProps, QlaEx | la_qq.c l.22-877 (all functions), f4.c l.254-340 (rows of the final interreduction) | Integers unbounded; the unrolled loops as the terms in order; memory as values, except the coefficient arrays in the final interreduction, which are a store emptied by the swaps; entries before the first column after a failed compare-and-swap not cleared (never read); statistics and timings left out. |
| Command line (C83) | CliSpec, CliModel, CliProofs, CliProps | main.c l.150-438 | getopt is that of the GNU C library without POSIXLY_CORRECT; fopen of the null pointer fails; a disk is a map of names to files and of files to texts that nobody else changes; texts of the messages not modelled |
| Vectors for -C (C84) | ColSpec, ColModel, ColProofs, ColProps | hilbert.c l.584-641, l.846-882, l.925-1029, l.2077-2089 | polynomials as lists of terms from the smallest; exponents instead of hash table; degrees do not overflow; the rest of build_matrixn_colon_no_zero and the computation of the quotient are not modelled |
| Left nullspace (C85) | LnullSpec, LnullModel, LnullProofs, LnullProps | upolmat/nmod_mat_left_nullspace.c l.25-112 | transposition and FLINT nmod_mat_nullspace enter by their documented result; indices nat; memory management left out |
| Approximant bases (C86) | AppSpec, AppModel, AppProofs, AppRunProofs, AppProps | upolmat/nmod_mat_poly_mbasis.c l.31-258, nmod_mat_poly_arith.c l.25-62, nmod_mat_poly.h l.172-231, 420-460 | matrices as functions of the indices with a length; shifts in Z; FLINT kernel by its documented result; qsort as insertion sort; row shift as for FLINT 3.3 and later |
| Divide and conquer for approximant bases (C87) | PmbModel, PmbProps | upolmat/nmod_poly_mat_pmbasis.c l.28-74, nmod_poly_mat_utils.c l.26-37, nmod_mat_poly_set_from.c l.51-74, nmod_mat_poly.h l.187-195 | as for C86; arrays of polynomials and polynomials with matrix coefficients are the same functions; recursion bounded by the order plus one; a ghost flag records exceptional calls |
| Weak Popov form of approximant bases (C88) | PopovProps | as for C86 and C87 | as for C86 and C87 |
| Polynomials with matrix coefficients as data (C89) | MatPolyModel, MatPolyProps | upolmat/nmod_mat_poly.h l.165-245, 361-415, nmod_mat_poly_mem.c l.104-171, nmod_mat_poly_shift.c l.24-68 | coefficients in any type with a zero; array as a function with length and allocation; access outside the length is None |
| Degrees and homogeneity of the input (C90) | HomModel, HomProps | neogb/io.c l.25-53, 409-446, hash.c l.628-629 | polynomial as sorted list of exponent vectors; exponents unbounded |
