{"id": "C01", "title": "Expression evaluation is a ring homomorphism", "statement": "Building an Expression with +, -, *, unary -, scaling and constants and then calling evaluate() with field closures yields exactly the corresponding field arithmetic on the values returned for the leaves; evaluating with polynomial closures and then at a point x gives the same as evaluating with the leaves' values at x.", "quantifier": "all expression trees of any size and shape, all fields, all leaf assignments, all points x", "why_tests_cant": "Expression trees are unboundedly deep and values range over a cryptographic-size field; tests only sample a few gates.", "anchors": ["src/vo/expression.rs: Expression::evaluate, impl Neg/Add/Sub/Mul"]}
{"id": "C02", "title": "Expression::degree is a sound degree bound", "statement": "If degree() returns Ok(d) when every oracle leaf reports at least the degree of its polynomial, then the polynomial obtained by evaluating the expression over those polynomials has degree at most d; degree() fails exactly when some leaf fails, with the error of the left-most failing leaf.", "quantifier": "all expressions, all oracle degree functions, all leaf polynomials", "why_tests_cant": "Needs an induction over all expression trees; a missed case would only show on shapes a test does not build.", "anchors": ["src/vo/expression.rs: Expression::degree", "src/indexer.rs: compute_quotient_degree"]}
{"id": "C03", "title": "GenericVO::configure resolves indices to the intended oracles and registers exactly the declared rotations", "statement": "After configure(), get_expression() is Ok and evaluating it (leaves looked up by label) equals evaluating the virtual expression with leaves looked up by index, whenever labels are unique; each oracle's rotation set is its old set plus exactly the declared query rotations for it; nothing else about the oracles changes; configure panics iff a used index is out of range; before configure get_expression() is Err(UninitializedExpr).", "quantifier": "all virtual expressions, query lists, oracle vectors with unique labels", "why_tests_cant": "Quantifies over arbitrary circuits (expressions and oracle vectors).", "anchors": ["src/vo/generic_vo.rs: GenericVO::init, configure, get_expression", "src/vo/virtual_expression.rs: to_expression"]}
{"id": "C04", "title": "GenericLookupVO::configure accepts exactly fixed-column table queries", "statement": "configure() returns Ok iff all table queries are of Fixed type (and indices are in range), Err(WitnessTableNotAllowed/InstanceTableNotAllowed) according to the first offending query otherwise; on Ok the expressions and table queries are the resolved ones; before that the getters return Err(UninitializedLookupExpr / UninitializedLookupTableQuery).", "quantifier": "all lookup configurations and oracle vectors", "why_tests_cant": "Quantifies over all configurations.", "anchors": ["src/vo/generic_lookup_vo.rs: configure, get_expressions, get_table_queries"]}
{"id": "C05", "title": "Precompiled gates declare every query they use", "statement": "For each precompiled virtual oracle, every (oracle, rotation) occurring in its expression is in its declared query list, so that after configure the verifier has all evaluations it needs.", "quantifier": "all precompiled VOs", "why_tests_cant": "A missing declared query shows up only when the specific oracle is not otherwise queried at that rotation.", "anchors": ["src/vo/precompiled/mod.rs: PrecompiledVO::get_expression_and_queries"]}
{"id": "C06", "title": "Multiplication gate is satisfied iff the product holds", "statement": "PrecompiledMul evaluates to zero at a row iff witness0 * witness1 = instance0 there.", "quantifier": "all fields, all row values", "why_tests_cant": "All field elements.", "anchors": ["src/vo/precompiled/mul.rs"]}
{"id": "C07", "title": "Plonk arithmetic gate is satisfied iff the plonk equation holds", "statement": "PrecompiledPlonkArith evaluates to zero at a row iff qL*a + qR*b + qM*a*b + qO*c + qC + PI = 0 (in the code's argument order).", "quantifier": "all fields, all row values", "why_tests_cant": "All field elements.", "anchors": ["src/vo/precompiled/plonk_arith.rs: PrecompiledPlonkArith"]}
{"id": "C08", "title": "4-wire plonk arithmetic gate constrains its fourth wire", "statement": "PrecompiledPlonkArith4 constrains four distinct witness columns a,b,c,d: changing the value of the 4th witness column changes satisfaction when its selector is non-zero.", "quantifier": "all fields, all row values", "why_tests_cant": "A wrong column index is invisible when test witnesses have d = c.", "anchors": ["src/vo/precompiled/plonk_arith.rs: PlonkArith4"]}
{"id": "C09", "title": "Rescue gate is satisfied iff w5 is the selected linear combination of fifth powers", "statement": "The Rescue VO evaluates to zero at a row iff w5 = sum over i in 1..4 of q_i * w_i^5, all cells on that row (w5 is the fifth witness column).", "quantifier": "all fields, all row values", "why_tests_cant": "All field elements.", "anchors": ["src/vo/precompiled/rescue.rs"]}
{"id": "C10", "title": "Delta gate enforces base-4 accumulation", "statement": "If the Delta VO vanishes on every row, then for every row with q_last = 0 the next cell minus four times the current cell lies in {0,1,2,3}; consequently the accumulator at row m equals 4^m * a_0 plus a base-4 number with m digits.", "quantifier": "all fields, all column lengths, all accumulator columns", "why_tests_cant": "Needs induction on the number of rows.", "anchors": ["src/vo/precompiled/logic.rs: Delta"]}
{"id": "C11", "title": "DeltaXorAnd gate computes XOR / AND of 2-bit values", "statement": "For a,b in {0,1,2,3}, c = a*b and d, the DeltaXorAnd VO vanishes iff (q_c = 1 and d = a AND b) resp. (q_c = -1 and d = a XOR b).", "quantifier": "all fields of characteristic not 2 or 3, all four values of a and b, all d", "why_tests_cant": "d ranges over the whole field (uniqueness of the accepted value).", "anchors": ["src/vo/precompiled/logic.rs: DeltaXorAnd"]}
{"id": "C12", "title": "Coset queries with rotation agree with the polynomial", "statement": "After compute_extended_evals, query_in_coset(i, rot) returns the polynomial's value at (coset generator)*(ext root)^i shifted by rot steps of the original domain (backwards for Minus).", "quantifier": "all polynomials of degree < n, all power-of-two sizes n <= N, all coset indices, all rotations that do not hit the out-of-bounds case", "why_tests_cant": "Index arithmetic with wrap-around for every (index, rotation, size, ratio).", "anchors": ["src/oracles/traits.rs: Instantiable::query_in_coset", "src/oracles/witness.rs: compute_extended_evals", "src/oracles/fixed.rs: compute_extended_evals", "src/oracles/instance.rs: compute_extended_evals"]}
{"id": "C13", "title": "Row queries with rotation agree with the polynomial", "statement": "query_at_omega_in_original_domain(i, rot) returns the column value at row i shifted cyclically by rot, which equals the polynomial evaluated at omega^i * omega^(+-rot).", "quantifier": "all columns, sizes, rows and rotations not hitting the out-of-bounds case", "why_tests_cant": "Wrap-around index arithmetic.", "anchors": ["src/oracles/traits.rs: query_at_omega_in_original_domain"]}
{"id": "C14", "title": "Rotated queries never index out of bounds", "statement": "query_in_coset / query_at_omega_in_original_domain return a value for every row and every rotation.", "quantifier": "all rows, all rotation degrees and signs", "why_tests_cant": "The failing case needs a backward rotation of at least a whole domain.", "anchors": ["src/oracles/traits.rs: query_in_coset, query_at_omega_in_original_domain"]}
{"id": "C15", "title": "Lagrange-basis querying equals polynomial evaluation", "statement": "query_in_evals_form with the Lagrange basis evaluated at x returns poly(x) for the interpolating polynomial.", "quantifier": "all columns, all points x", "why_tests_cant": "All field points.", "anchors": ["src/oracles/traits.rs: query_in_evals_form"]}
{"id": "C16", "title": "Rotation evaluation points agree between prover and verifier", "statement": "The point that get_point_info associates to a rotation is challenge*omega^d (Plus) or challenge*omega^-d (Minus), equals compute_evaluation_point, and two rotations yield the same point iff they are congruent modulo n (challenge non-zero).", "quantifier": "all domains, challenges, rotations with degree < n", "why_tests_cant": "All sizes and challenges.", "anchors": ["src/oracles/rotation.rs: compute_evaluation_point, get_point_info", "src/oracles/traits.rs: get_query_set"]}
{"id": "C17", "title": "Verifier oracles: last registered evaluation is what query returns", "statement": "query(x) returns Ok(v) where v is the last value registered at x, Err(MissingConcreteEval(label)) if none was; registering at one point does not affect others.", "quantifier": "all histories of register calls", "why_tests_cant": "All histories.", "anchors": ["src/oracles/witness.rs: WitnessVerifierOracle", "src/oracles/fixed.rs: FixedVerifierOracle"]}
{"id": "C18", "title": "Claimed evaluations reach the oracle and point they were computed for", "statement": "The flat evaluation vector produced by the prover from (oracles, xi) and consumed by the verifier from its own oracles with the same labels and rotations registers, for every oracle and every registered rotation, exactly the polynomial's value at the rotated point.", "quantifier": "all oracle vectors with unique labels, all rotation sets, all challenges", "why_tests_cant": "Order/alignment of an implicit map for all label sets and rotation sets.", "anchors": ["src/util.rs: evaluate_query_set", "src/piop/verifier.rs: get_query_set", "src/turbo_plonk.rs: prove, verify"]}
{"id": "C19", "title": "Z_H inverses over the coset are correct", "statement": "compute_zh_evals returns, at index i, the inverse of z_h at the i-th coset point, in all of its three branches (z_h = X^n-1 with extended size n, z_h = X^n-1 with larger extended domain, other z_h).", "quantifier": "all domain sizes, all z_h of degree < N not vanishing on the coset", "why_tests_cant": "Three branches, all sizes, all polynomials.", "anchors": ["src/indexer.rs: compute_zh_evals", "src/util.rs: compute_vanishing_poly_over_coset"]}
{"id": "C20", "title": "Indexer: extended domain large enough for the quotient", "statement": "If index() succeeds, the extended coset domain has strictly more points than the degree of the quotient polynomial of any satisfying assignment (so the quotient is representable).", "quantifier": "all VO sets, all domain sizes, all z_h", "why_tests_cant": "Off-by-one at powers of two only shows for particular (degree, size) pairs.", "anchors": ["src/indexer.rs: compute_quotient_degree, index"]}
{"id": "C21", "title": "Indexer is total on VOs: it returns Ok or Err, never panics", "statement": "index() on configured VOs returns Ok or a documented Err for every constraint system, including linear constraints and empty constraint lists.", "quantifier": "all VO sets, all z_h", "why_tests_cant": "Only triggered by low-degree constraint systems.", "anchors": ["src/indexer.rs: compute_quotient_degree (max_degree - z_h_degree)"]}
{"id": "C22", "title": "Indexer scaling factor suffices for permutation and lookup arguments", "statement": "When there are columns to copy the scaling factor is at least 2 and each grand-product chunk uses at most scaling-1 columns so that its constraint's quotient fits the extended domain; with lookups it is at least 4 and the lookup constraints' quotient fits.", "quantifier": "all circuits with n > 1 whose z_h has degree at least n minus the scaling factor (in particular z_h = X^n - 1), all columns of degree below n", "why_tests_cant": "All sizes and column counts.", "anchors": ["src/indexer.rs: index", "src/permutation/mod.rs: new, MINIMAL_SCALING_FACTOR", "src/lookup/mod.rs: MINIMAL_SCALING_FACTOR"]}
{"id": "C23", "title": "Number of Z polynomials and alphas matches the argument", "statement": "number_of_z_polys equals the number of chunks actually produced, and number_of_alphas covers exactly the constraints instantiated, for every number of columns.", "quantifier": "all numbers of copied columns and scaling factors >= 2", "why_tests_cant": "All sizes; off-by-one at chunk boundaries.", "anchors": ["src/permutation/mod.rs: number_of_z_polys, number_of_alphas, construct_agg_polys, instantiate_argument_at_omega_i"]}
{"id": "C24", "title": "Permutation argument completeness", "statement": "If the witness columns respect the copy constraints (equal values along each cycle of the permutation over the usable rows), construct_agg_polys does not panic unless a denominator is zero, and every permutation constraint vanishes on every row of the domain, whatever the blinding values.", "quantifier": "all column counts, sizes, chunkings, permutations, witnesses, challenges beta, gamma, blinding rows", "why_tests_cant": "All permutations and sizes.", "anchors": ["src/permutation/mod.rs: construct_agg_polys, instantiate_argument_at_omega_i", "src/permutation/grand_product.rs: construct_agg_poly, instantiate_argument_at_omega_i"]}
{"id": "C25", "title": "Permutation argument soundness", "statement": "If some copy constraint is violated, then for all but boundedly many (beta, gamma) no choice of Z columns makes all permutation constraints vanish on the domain (except through a zero product).", "quantifier": "all witnesses, permutations, Z columns, challenges outside an explicit bounded set", "why_tests_cant": "Universally quantified over adversarial Z columns and field challenges.", "anchors": ["src/permutation/mod.rs", "src/permutation/grand_product.rs"]}
{"id": "C26", "title": "permute_for_lookup output satisfies the lookup relation", "statement": "For equal-length a and s with every element of a in s, permute_for_lookup returns (a', s') with a' a permutation of a, s' a permutation of s, a'_0 = s'_0 and for every i > 0 a'_i = a'_{i-1} or a'_i = s'_i.", "quantifier": "all lists of all lengths over any totally ordered field", "why_tests_cant": "All lengths and multiplicities.", "anchors": ["src/lookup/permute.rs: permute_for_lookup"]}
{"id": "C27", "title": "permute_for_lookup panics iff the lookup is unsatisfied", "statement": "permute_for_lookup panics iff the lengths differ or some element of a is not in s; no internal subtraction underflows and no internal unwrap fails.", "quantifier": "all pairs of lists", "why_tests_cant": "All inputs.", "anchors": ["src/lookup/permute.rs: permute_for_lookup"]}
{"id": "C28", "title": "Lookup argument completeness", "statement": "If every usable row of the compressed expression occurs in the compressed table, the lookup constraints all vanish on every row for the prover's a', s', z (with blinding), unless a denominator is zero. (Preconditions of the code: 0 < usable rows < n, queried columns exist, and the compressed expression has degree below n, see C33.)", "quantifier": "all columns, tables, usable row counts, blinders, challenges", "why_tests_cant": "All tables/columns.", "anchors": ["src/lookup/mod.rs: construct_a_and_s_polys_prover, instantiate_argument_at_omega_i", "src/lookup/subset_equality.rs"]}
{"id": "C29", "title": "Lookup argument soundness", "statement": "If some usable row's compressed value is not in the compressed table, then whatever permuted columns a', s' the prover commits to, for all but boundedly many beta and, given beta, all but boundedly many gamma, no grand product column z makes the lookup constraints vanish on the domain (with correct selectors).", "quantifier": "all adversarial columns, all challenges outside an explicit bounded set", "why_tests_cant": "Adversarial columns.", "anchors": ["src/lookup/mod.rs", "src/lookup/subset_equality.rs"]}
{"id": "C30", "title": "Lookup soundness does not depend on an unrelated permutation setting", "statement": "A circuit with lookups but no copy constraints, built with PermutationInfo::dummy()/empty(), still enforces table membership on all usable rows.", "quantifier": "all circuits using lookups without permutation", "why_tests_cant": "Only an adversarial prover shows it; honest tests pass.", "anchors": ["src/data_structures.rs: PermutationInfo::dummy, empty", "src/piop/prover.rs: prover_quotient_round (lu)", "src/turbo_plonk.rs: verify (lu)", "src/lookup/subset_equality.rs"]}
{"id": "C31", "title": "Multi-column lookups compress injectively up to bounded theta", "statement": "If a row tuple differs from every table tuple, then for all but boundedly many theta its compression differs from every compressed table row.", "quantifier": "all tuples, all tables, all theta outside a bounded set", "why_tests_cant": "Field-size quantification.", "anchors": ["src/lookup/mod.rs: construct_a_and_s_polys_prover (theta powers)"]}
{"id": "C32", "title": "Prover and verifier compute the same lookup column", "statement": "The value the verifier computes for the compressed expression and table from opened evaluations equals the prover's compressed polynomials at xi, for every lookup expression including rotated and fixed/instance queries.", "quantifier": "all lookup expressions, all rotations", "why_tests_cant": "Only fails with rotated fixed/instance/table queries.", "anchors": ["src/lookup/mod.rs: construct_a_and_s_polys_prover, construct_a_and_s_unpermuted_polys_verifier"]}
{"id": "C33", "title": "Lookup expressions of any degree are supported by the prover", "statement": "The prover round for a lookup expression completes for every expression with all rows in the table.", "quantifier": "all lookup expressions", "why_tests_cant": "Only non-linear lookup expressions trigger it.", "anchors": ["src/lookup/mod.rs: assertion on extended evals"]}
{"id": "C34", "title": "Prover's coset formulas and verifier's opening formulas are the same polynomial identity", "statement": "For the permutation and the lookup arguments, instantiate_argument_at_omega_i at coset index i equals open_argument evaluated with the same polynomials at the point g*w_ext^i.", "quantifier": "all indices, all columns, all challenges", "why_tests_cant": "Two hand-written copies of the same long formula.", "anchors": ["src/permutation/mod.rs", "src/permutation/grand_product.rs", "src/lookup/mod.rs", "src/lookup/subset_equality.rs"]}
{"id": "C35", "title": "Constraint separation by powers of alpha", "statement": "Distinct constraints (virtual oracles, permutation constraints, lookup constraints) are weighted by distinct powers of alpha; the aggregated numerator vanishing on a row for more alphas than constraints implies every constraint vanishes on that row.", "quantifier": "all numbers of constraints, all values", "why_tests_cant": "All circuit shapes.", "anchors": ["src/piop/prover.rs: prover_quotient_round", "src/turbo_plonk.rs: verify (alpha schedule)"]}
{"id": "C36", "title": "Quotient chunk split and recombination", "statement": "Splitting the quotient into n-coefficient chunks and recombining with powers of x^n yields the quotient's value at x; the number of chunks is extended size / n.", "quantifier": "all quotient polynomials, all x", "why_tests_cant": "All polynomials.", "anchors": ["src/piop/prover.rs: prover_quotient_round (chunks)", "src/turbo_plonk.rs: verify (t_part)"]}
{"id": "C37", "title": "PIOP completeness", "statement": "If every virtual oracle vanishes on every root of z_h (and the permutation/lookup constraints do), then the quotient identity checked by the verifier holds at every xi, provided the quotient fits the extended domain.", "quantifier": "all circuits, witnesses, alpha, xi", "why_tests_cant": "All circuits.", "anchors": ["src/piop/prover.rs: prover_quotient_round", "src/turbo_plonk.rs: verify (quotient check)"]}
{"id": "C38", "title": "PIOP soundness", "statement": "If some constraint is non-zero on a row where z_h vanishes, then for all but boundedly many alpha and, given alpha, all but boundedly many xi, the verifier's quotient equation on the true evaluations fails for every choice of quotient chunk polynomials of bounded degree.", "quantifier": "all circuits, all adversarial columns and quotient polynomials, all challenges outside bounded sets; usable_rows > 0 when copy constraints and lookups are both present (otherwise C35 fails)", "why_tests_cant": "Adversarial quantification.", "anchors": ["src/turbo_plonk.rs: verify (quotient check)"]}
{"id": "C39", "title": "Lagrange basis and vanishing polynomial helpers are correct", "statement": "construct_lagrange_basis on distinct points returns polynomials with L_i(x_j) = [i = j]; it panics iff points repeat; construct_vanishing vanishes exactly on the points.", "quantifier": "all point lists", "why_tests_cant": "All sizes.", "anchors": ["src/multiproof/poly.rs"]}
{"id": "C40", "title": "Multi-opening completeness", "statement": "Multiopen::verify accepts the proof produced by Multiopen::prove for the true evaluations, for all oracle sets and rotation sets, unless the challenge x3 equals an opened point.", "quantifier": "all oracle vectors, rotation sets, polynomials, randomness, challenges", "why_tests_cant": "All groupings by rotation set.", "anchors": ["src/multiproof/piop/mod.rs: prove, verify", "src/multiproof/piop/prover.rs"]}
{"id": "C41", "title": "Multi-opening soundness", "statement": "If Multiopen::verify accepts then the claimed evaluations are the committed polynomials' evaluations (up to bounded bad challenges).", "quantifier": "all proofs, all claimed evaluations", "why_tests_cant": "Adversarial proofs.", "anchors": ["src/multiproof/piop/mod.rs: verify"]}
{"id": "C42", "title": "Multi-opening binds the batched polynomials when the proof has the right shape", "statement": "If the proof carries one q_eval per opening set and the commitment scheme is binding, then for all but boundedly many challenges an accepted proof implies that the claimed evaluations combined with x1 agree with the aggregated polynomial at every point of each set; if the claims were fixed before x1 was drawn, that each single claim is true.", "quantifier": "all polynomials, all claimed evaluations, challenges outside bounded sets", "why_tests_cant": "Adversarial quantification.", "anchors": ["src/multiproof/piop/mod.rs: verify"]}
{"id": "C43", "title": "Individual evaluations are bound by the multi-opening", "statement": "Given accepted openings, each individual claimed evaluation is the true one, even if the prover chooses evaluations after the challenge x1 is known.", "quantifier": "all provers", "why_tests_cant": "Adversarial; depends on what is absorbed in the transcript.", "anchors": ["src/multiproof/piop/mod.rs", "src/turbo_plonk.rs: evaluations not absorbed"]}
{"id": "C44", "title": "End-to-end completeness", "statement": "If prove() returns a proof for inputs whose virtual oracles vanish on the rows of z_h, then verify() on the matching verifier inputs returns Ok(()) (unless an evaluation point collides with x3).", "quantifier": "all circuits, witnesses, randomness, hash functions, homomorphic commitment schemes", "why_tests_cant": "All circuits and challenges.", "anchors": ["src/turbo_plonk.rs: prove, verify"]}
{"id": "C45", "title": "End-to-end soundness: no accepted proof for a false statement", "statement": "verify() returning Ok(()) implies that the committed witness satisfies the constraints except with the scheme's soundness error.", "quantifier": "all proofs", "why_tests_cant": "Adversarial proofs.", "anchors": ["src/turbo_plonk.rs: verify", "src/multiproof/piop/mod.rs: verify"]}
{"id": "C46", "title": "Prover and verifier derive identical challenges", "statement": "For every proof produced by prove(), the verifier recomputes exactly the challenges theta, beta, gamma, alpha, xi, x1..x4 used by the prover.", "quantifier": "all circuits, hash functions, RNGs", "why_tests_cant": "All transcripts.", "anchors": ["src/turbo_plonk.rs: prove, verify", "src/rng.rs", "src/multiproof/piop/verifier.rs"]}
{"id": "C47", "title": "Challenges bind the statement", "statement": "Changing the public inputs, the verifier key or the fixed commitments changes the transcript from which challenges are derived.", "quantifier": "all statements", "why_tests_cant": "Property of the transcript for all inputs.", "anchors": ["src/turbo_plonk.rs: fs_rng usage", "src/rng.rs"]}
{"id": "C48", "title": "Malformed proofs are rejected with an error, not a panic", "statement": "verify() on a proof with wrong vector lengths returns Err.", "quantifier": "all proofs of any shape", "why_tests_cant": "All malformed shapes.", "anchors": ["src/turbo_plonk.rs: verify (assert_eq!, indexing)"]}
{"id": "C49", "title": "Verification is independent of earlier verifications on the same oracle objects", "statement": "The result of verify() on a proof does not depend on evaluations or commitments left in the oracles by earlier verify() calls.", "quantifier": "all histories of verify calls", "why_tests_cant": "All histories.", "anchors": ["src/turbo_plonk.rs: verify (register_eval_at_challenge, zip of commitments)"]}
{"id": "C50", "title": "MockProver accepts iff all virtual oracles vanish on all rows", "statement": "MockProver::prove succeeds iff every VO evaluates to zero on every row; otherwise it panics naming the first failing row/VO; MockProver does not check copy or lookup constraints; MockProver::verify always accepts.", "quantifier": "all circuits and witnesses", "why_tests_cant": "All circuits.", "anchors": ["src/mock_prover.rs"]}
{"id": "C51", "title": "Commitment homomorphism", "statement": "KZG10's add / scale_com / zero_comm / msm / neg_com together with add_rands / scale_rand satisfy: combining commitments and combining (polynomial, randomness) then committing give the same commitment, and openings of the combination verify.", "quantifier": "all polynomials, scalars, randomness", "why_tests_cant": "All polynomials.", "anchors": ["src/commitment.rs"]}
{"id": "C52", "title": "Internal length assertions never fire in prove()", "statement": "The number of randomness values handed to the multi-opening equals the number of oracles for every circuit.", "quantifier": "all circuits", "why_tests_cant": "All column counts.", "anchors": ["src/turbo_plonk.rs: prove", "src/data_structures.rs: ProverPreprocessedInput::new", "src/multiproof/piop/prover.rs: init_prover"]}
{"id": "C53", "title": "Fiat-Shamir RNG state is determined by the absorbed history and rebinds the whole history", "statement": "The seed after a history of initialize/absorb calls is a function of that history only, and for a hash with digests of a fixed length greater than the length of the initial input, two different histories of absorbed inputs leading to the same seed exhibit a collision of the hash.", "quantifier": "all absorb histories, all hash functions", "why_tests_cant": "All histories.", "anchors": ["src/rng.rs: SimpleHashFiatShamirRng"]}
{"id": "C54", "title": "Proof info counts", "statement": "cumulative_info reports the number of commitments and evaluations actually contained in the proof.", "quantifier": "all proofs", "why_tests_cant": "All proof shapes.", "anchors": ["src/turbo_plonk.rs: TPProof::info, cumulative_info"]}
{"id": "C55", "title": "Completeness for every vanishing polynomial when the quotient fits", "statement": "For any vanishing polynomial z_h that is a constant times the product of X - w^i over some rows, if the constraints hold on those rows and the extended domain has room for the quotients of the gates, the copy constraints and the lookups, then every proof prove() returns is accepted by verify() on the matching verifier inputs, unless x3 is one of the opened points. In particular prove() itself refuses witnesses that break a copy constraint or a lookup.", "quantifier": "all circuits, all row sets, witnesses, zk randomness, Fiat-Shamir generators and correct homomorphic commitment schemes", "why_tests_cant": "All circuits and challenges.", "anchors": ["src/turbo_plonk.rs: prove, verify"]}
{"id": "C56", "title": "Interactive soundness with the right number of q_evals", "statement": "If the polynomials a proof is bound to by its witness, lookup and permutation commitments violate some constraint on a row of z_h, then, with challenges drawn one after the other and q_evals carrying one value for each opening set, all but explicitly boundedly many draws at each step leave verify() rejecting whatever the prover sends in between.", "quantifier": "all circuits, all commitments, all adversarial continuations, all challenges outside explicit bounded sets, all binding homomorphic commitment schemes", "why_tests_cant": "Adversarial provers and field-size quantification.", "anchors": ["src/turbo_plonk.rs: verify", "src/multiproof/piop/mod.rs: verify"]}
{"id": "C57", "title": "Interactive soundness, constraint by constraint", "statement": "A proof whose witness commitments are bound to columns that break a gate on a row of z_h, a copy constraint on a usable row, or a lookup on a usable row (an input tuple that is no usable row of the table) is rarely accepted: the challenges are drawn one after the other, and at each draw all but an explicit number of values (u*(k-1) thetas, k*u or 2u betas, 2*k*u or 2u gammas, then alpha, xi, x1, x2, x3, x4) leave verify() rejecting whatever the prover commits to, evaluates and opens in between, provided q_evals carries one value for each opening set.", "quantifier": "all circuits, all witness commitments, all adversarial continuations, all challenges outside explicit bounded sets, all binding homomorphic commitment schemes", "why_tests_cant": "Adversarial provers and field-size quantification.", "anchors": ["src/turbo_plonk.rs: verify", "src/permutation/mod.rs: open_argument", "src/lookup/mod.rs: open_argument", "src/multiproof/piop/mod.rs: verify"]}
{"id": "C58", "title": "What earlier verify calls can influence", "statement": "After any history of verify() calls on the same oracle objects, accepted, rejected or panicking, verify() answers as it would on oracles in which only the witness commitments of the earlier proofs are registered: evaluations left in the oracles never matter.", "quantifier": "all circuits, all histories of verify calls, all proofs", "why_tests_cant": "All histories and proofs.", "anchors": ["src/turbo_plonk.rs: verify (register_eval_at_challenge, zip of commitments)"]}
{"id": "C59", "title": "When prove returns a proof", "statement": "For every indexed, well-laid-out circuit whose copy constraints hold along a permutation of the cells and in whose usable rows every looked-up tuple is a table row, with a commitment key long enough for n coefficients, prove() returns a proof (no error, no panic), unless a challenge makes one of the denominators of the grand products zero or xi is zero. For each theta at most (lookups * usable rows) betas, and then at most (copied cells + lookups * usable rows) gammas, do that. If the gates hold as well and the quotient fits, verify() accepts that proof.", "quantifier": "all fields, circuits, witnesses satisfying copies and lookups, challenges, transcripts, blinding randomness and correct commitment schemes", "why_tests_cant": "All circuits and all challenges; a failing challenge is too rare for a test to meet.", "anchors": ["src/turbo_plonk.rs: prove", "src/piop/prover.rs: all rounds", "src/permutation/mod.rs: construct_agg_polys", "src/lookup/mod.rs: construct_a_and_s_polys_prover", "src/commitment.rs: KZG10"]}
{"id": "C60", "title": "Where the prover's randomness goes", "statement": "A successful prove() uses its random generator exactly for: one fresh randomness per commitment it publishes (witness, permuted lookup columns, permutation products, lookup products, quotient chunks, multi-opening polynomial), the rows after the usable ones of both permuted columns of every lookup, and the rows after row u of every product. No value is used twice and nothing else is drawn. Each commitment in the proof is to its own polynomial under its own randomness. Which calls are made depends on the numbers of columns, lookups and chunks only, not on the witness.", "quantifier": "all circuits, witnesses, transcripts, generators and commitment schemes", "why_tests_cant": "Reused or missing randomness changes no verdict, so no functional test notices it.", "anchors": ["src/turbo_plonk.rs: prove", "src/lookup/mod.rs: construct_a_and_s_polys_prover", "src/lookup/subset_equality.rs: construct_agg_poly", "src/permutation/grand_product.rs: construct_agg_poly", "src/multiproof/piop/mod.rs: prove"]}
{"id": "C61", "title": "How many openings the blinded rows hide", "statement": "If a column is opened at no more points outside the domain than it has blinded rows, then for any other content of its remaining rows there is a fixed shift of the blinding that gives the same openings, so uniformly random blinding makes the openings independent of the content. With one more opening, contents that differ in a single row always have different openings, whatever the blinding. prove() does not check that there are enough blinded rows.", "quantifier": "all fields, domains, columns, numbers of blinded rows, sets of points and blinding values", "why_tests_cant": "A statement about all pairs of contents and all blinding values.", "anchors": ["src/lookup/mod.rs: construct_a_and_s_polys_prover (blinding rows)", "src/permutation/grand_product.rs: construct_agg_poly (blinding rows)", "src/turbo_plonk.rs: prove"]}
{"id": "C62", "title": "prove refuses broken copies and lookups", "statement": "If two cells the permutation columns tie together hold different values, prove() returns no proof, except for few challenges: for every theta, all but (copied columns * usable rows) betas leave at most twice that many gammas. If the tuple a lookup of k columns reads in a usable row is not a usable row of its table, prove() returns a proof for at most (usable rows * (k - 1)) thetas. Both hold whatever the later challenges and the random generator give.", "quantifier": "all indexed, well-laid-out circuits, all commitment schemes, all challenges, all random generators", "why_tests_cant": "All circuits, witnesses and challenges.", "anchors": ["src/turbo_plonk.rs: prove", "src/permutation/mod.rs: construct_agg_polys", "src/lookup/mod.rs: construct_a_and_s_polys_prover", "src/lookup/permute.rs"]}
{"id": "C63", "title": "Claimed evaluations of columns without a rotation are not checked", "statement": "verify() opens no commitment of a q_blind or permutation column that is registered without a rotation (as VerifierPreprocessedInput::new_wo_blind registers q_blind): take a proof returned by prove() for any witness, also one that violates the gates, and replace the claimed evaluation of that column by v. Then either the verdict does not depend on v, or exactly one value v is accepted, whatever the committed column is. With a rotation registered, C56 and C57 hold.", "quantifier": "all indexed, well-laid-out circuits with such a column, satisfied or not, all witnesses with a returned proof, all commitment schemes with correct openings, hash functions and random generators, unless the challenge x3 hits an opened point", "why_tests_cant": "All circuits, witnesses and claimed values.", "anchors": ["src/data_structures.rs: VerifierPreprocessedInput::new_wo_blind", "src/oracles/fixed.rs: FixedVerifierOracle::new", "src/turbo_plonk.rs: verify", "src/multiproof/piop/mod.rs: verify"]}
{"id": "C64", "title": "MockProver predicts verify", "statement": "If a gate is not zero on a row on which z_h vanishes, then, whatever theta, beta, gamma and the random generator give, all but (gates + 2 * copied columns + 5 * lookups) values of alpha leave fewer than (rows of z_h + size of the extended domain) values of xi for which prove() returns a proof that verify() accepts. Hence, when z_h = X^n - 1 and the quotient degree differs from the size of the extended domain: if MockProver::prove succeeds, verify() accepts every proof prove() returns (unless x3 hits an opened point), and if MockProver::prove fails, verify() accepts a proof returned by prove() for few challenges only.", "quantifier": "all indexed, well-laid-out circuits and witnesses, all challenges, random generators and commitment schemes (with correct openings for the first half)", "why_tests_cant": "All circuits, witnesses and challenges.", "anchors": ["src/mock_prover.rs: prove", "src/turbo_plonk.rs: prove, verify", "src/data_structures.rs: ProverPreprocessedInput"]}
{"id": "C65", "title": "Exactly when prove returns a proof", "statement": "For an indexed, well-laid-out circuit and a commitment key that is long enough, prove() returns a proof exactly when there is at least one gate, at least one row is left for blinding, every lookup holds for the columns combined with theta, the two products over the copied cells agree at beta and gamma, no denominator of the grand products is zero, and the points at which each column is opened for xi are distinct. Otherwise (with a gate and a row for blinding) it panics when a lookup, the products or a denominator is wrong, and returns a RepeatedRotation error when only the points repeat. In particular no transcript makes prove() return a proof for a circuit with a column queried at two rotations that name the same row.", "quantifier": "all indexed, well-laid-out circuits and witnesses, all challenges, transcripts, random generators and commitment schemes that commit to and open polynomials of fewer than n coefficients", "why_tests_cant": "An equivalence over all circuits, witnesses and challenges.", "anchors": ["src/turbo_plonk.rs: prove", "src/permutation/mod.rs: construct_agg_polys", "src/lookup/mod.rs: construct_a_and_s_polys_prover", "src/lookup/subset_equality.rs: construct_agg_poly", "src/multiproof/piop/prover.rs: prover_first_round"]}
{"id": "C66", "title": "prove and verify treat a domain_size that is not a power of two differently", "statement": "When domain_size is not a power of two, prove() and MockProver::prove() do exactly what they do with the next power of two, but verify() does not: on a proof it accepts with that power of two, it panics with an out-of-range index when the usable rows do not fit in domain_size, and otherwise it accepts exactly when the quotient chunks, recombined with xi to the power domain_size, give the same value as with the power of two (or the vanishing polynomial is zero at xi), and returns QuotientNotZero if they do not.", "quantifier": "all domain sizes m and the least power of two n with m <= n, all keys, preprocessed inputs, proofs, columns, virtual oracles, transcripts and commitment schemes", "why_tests_cant": "Ranges over all sizes, circuits, proofs and challenges; the repository's tests only use powers of two.", "anchors": ["src/turbo_plonk.rs: prove", "src/turbo_plonk.rs: verify", "src/mock_prover.rs: MockProver::prove"]}
{"id": "C67", "title": "verify accepts only when every cell the constraints read is opened", "statement": "If verify() accepts a proof on columns in which no evaluation has been registered before (and xi is not zero), then every cell the constraints read was declared as an opening: for every query of every gate and every lookup expression some column with the queried label is opened at the row the queried rotation names (public columns only have to exist, and fixed columns in lookups are read at the current row), every table query names a table column opened at the current row, and every column under the copy constraints is opened at the current row. In particular a copied column that is not queried at the current row makes every proof rejected.", "quantifier": "all keys, preprocessed inputs, columns, virtual oracles, proofs, transcripts and commitment schemes, every domain size that is a power of two", "why_tests_cant": "Ranges over all circuits and all proofs; a missed case would only show in a circuit nobody tested.", "anchors": ["src/turbo_plonk.rs: verify", "src/permutation/mod.rs: open_argument", "src/lookup/mod.rs: construct_a_and_s_unpermuted_polys_verifier"]}
{"id": "C68", "title": "verify treats commitments as opaque elements of the scheme", "statement": "The outcome of verify() depends on the commitments it is given (in the proof, in the preprocessed input and in the columns) and on the opening proof only through the operations of the commitment scheme: if a map between two schemes respects zero, sums, multiples and the outcome of the opening check, and what is absorbed leads to the same transcript, then replacing every commitment and the opening proof by its image changes neither the verdict nor the error nor the panic.", "quantifier": "all pairs of commitment schemes and maps between them, all keys, preprocessed inputs, columns, proofs, transcripts and domain sizes", "why_tests_cant": "Ranges over all commitment schemes; a test uses one.", "anchors": ["src/turbo_plonk.rs: verify", "src/multiproof/piop/mod.rs: verify", "src/commitment.rs: HomomorphicCommitment"]}
{"id": "C69", "title": "Over KZG10 verify rarely accepts a false statement from an algebraic prover", "statement": "Let verify() run over KZG10 with an SRS of N powers of secrets tau and gamma, and let the prover send group elements that are combinations of the SRS it knows, chosen without knowing the secrets. An opening claim that is false of the committed polynomial passes the pairing check for more than one gamma only for at most N taus. Hence a proof that contains a false claim, and any proof for a witness that breaks a gate, a copy constraint or a lookup, is accepted only for few challenges, or few taus, or one gamma, with explicit bounds for each.", "quantifier": "all fields, groups, circuits, committed witnesses, strategies of the prover, challenges and secrets", "why_tests_cant": "Universal over adversaries and secrets.", "anchors": ["src/commitment.rs: KZG10", "src/turbo_plonk.rs: verify", "src/multiproof/piop/mod.rs: verify"]}
{"id": "C70", "title": "Accepted proofs are malleable in their quotient evaluations", "statement": "verify() reads one quotient evaluation for each quotient commitment of the proof: appending any further field elements to the list changes neither verdict nor error, so from every accepted proof anyone can make another accepted one with the same commitments; with fewer evaluations than commitments verify() panics.", "quantifier": "all keys, inputs, proofs, appended values, transcripts and commitment schemes", "why_tests_cant": "Universal over proofs and appended data; tests only verify what prove returned.", "anchors": ["src/turbo_plonk.rs: verify", "src/turbo_plonk.rs: TPProof"]}
{"id": "C71", "title": "Proofs of false statements can be made from proofs of true ones or from any witness", "statement": "If a proof has at least two quotient commitments, moving its first two quotient evaluations against each other (adding x1*delta to the first and subtracting delta from the second, x1 being a value anyone can compute from the proof) leaves every opening check of verify() as it was and lets the quotient identity take any value. So verify() accepts, for some delta, the moved version of every proof that prove() returns, also for a witness violating the gates, and of every proof it accepted, for other public inputs, other gates or another vanishing polynomial. The exceptions are xi a root of z_h, x1 = xi^n and x3 an opened point.", "quantifier": "all circuits, witnesses, public inputs, proofs, keys, transcripts and commitment schemes (correct, for proofs returned by prove; any, for accepted proofs)", "why_tests_cant": "Tests verify honest proofs only; that a forgery exists for every statement is universal over statements, proofs and hash outputs.", "anchors": ["src/turbo_plonk.rs: verify", "src/multiproof/piop/verifier.rs", "src/turbo_plonk.rs: prove"]}
{"id": "C72", "title": "What verify answers to the proofs prove returns", "statement": "For every indexed, well-laid-out circuit and every witness, satisfying or not, verify() answers Ok or Err(QuotientNotZero) to a proof returned by prove() (if x3 collides with no opening point): it neither panics nor fails an opening. It answers Ok whenever the gates, combined with powers of alpha, vanish on each row where z_h vanishes; if they do not, then for given earlier challenges prove() yields an accepted proof for fewer than (rows of z_h + extended domain size) values of xi.", "quantifier": "all circuits, witnesses, verifier copies of the columns, correct commitment schemes, Fiat-Shamir generators and randomness", "why_tests_cant": "Tests run the prover on satisfying witnesses and a few unsatisfying ones; the claim covers the verdict on every run of prove.", "anchors": ["src/turbo_plonk.rs: TurboPlonk::prove, TurboPlonk::verify", "src/multiproof/piop/mod.rs: Multiopen::verify"]}
{"id": "C73", "title": "Vanishing polynomials for which honest proofs are rejected", "statement": "Not every z_h that vanishes on the rows of a satisfied circuit gives accepted proofs. (a) If z_h is c(X^n - 1) with c other than 0 and 1 and the extended domain has n points, then verify() accepts proofs returned by prove() for a witness that satisfies every gate on every row for fewer than 2n values of xi, unless the gates combined with powers of alpha are the zero polynomial. (b) There is a circuit with copy constraints, whose z_h vanishes exactly on the usable rows, whose gates and copy constraints all hold, and to whose honest proof verify() answers Err(QuotientNotZero).", "quantifier": "(a) all circuits, witnesses, scale factors, commitment schemes and randomness; (b) existence of one circuit", "why_tests_cant": "The tests only use z_h = X^n - 1; the claim covers every scale factor and every witness.", "anchors": ["src/indexer.rs: Indexer::compute_zh_evals, Indexer::compute_quotient_degree", "src/turbo_plonk.rs: TurboPlonk::prove, TurboPlonk::verify"]}
{"id": "C74", "title": "The two numbers of usable rows", "statement": "The number of usable rows is given to the indexer and again in the permutation info, and no call compares or bounds them. In a circuit with lookups: (a) if the number given to the indexer is at least the number of rows, prove() never returns a proof; (b) if it is one less than the number in the permutation info, verify() can answer Err(QuotientNotZero) to the honest proof of a circuit whose gates and lookups all hold for either number; (c) likewise if both numbers are 0.", "quantifier": "(a) all circuits with a lookup, witnesses, commitment schemes, Fiat-Shamir generators and randomness; (b), (c) existence of a circuit and a run", "why_tests_cant": "The tests pass the same number twice; (a) covers every circuit and every run.", "anchors": ["src/indexer.rs: Indexer::index", "src/lookup/subset_equality.rs: SubsetEqualityArgument::construct_agg_poly", "src/piop/prover.rs: prover_lookup_round, prover_lookup_subset_equality_round", "src/permutation/mod.rs: PermutationArgument::new"]}
{"id": "C75", "title": "What the opening proof shows of a column", "statement": "For every set of rotations that some opened column declares, a proof contains one field element: the values at x3 of the columns with exactly these rotations, combined with powers of x1. So the value at x3 of a witness column whose set of rotations no other opened column declares is in the proof, and as many blinded rows as declared rotations do not hide such a column: with the same xi and x3, two columns that differ in one row outside these blinded rows give proofs with different evaluations, whatever the blinded rows, the other columns and the randomness are. One more blinded row is enough for the column's evaluations: for any other content of the remaining rows there is a blinding with which all these values are the same.", "quantifier": "all fields, circuits, witnesses, columns, commitment schemes, Fiat-Shamir generators and randomness, and all returning runs of prove()", "why_tests_cant": "Hiding is about all pairs of witnesses; a test sees one proof at a time.", "anchors": ["src/multiproof/piop/prover.rs: PIOP::prover_second_round", "src/multiproof/mod.rs: Proof", "src/turbo_plonk.rs: TurboPlonk::prove"]}
{"id": "C76", "title": "A single changed evaluation is noticed", "statement": "Let verify() accept a proof. If one field element among the evaluations of its columns (witness, fixed, table, permutation, blinding, lookup, lookup product, permutation product or quotient) is replaced by another one and nothing else is changed, verify() does not accept, provided that the commitment scheme accepts at most one value for a commitment, a point and an opening proof, that the challenges x1 and x2 are not 0, and that the proof has one witness commitment for each witness column and an opening value for each declared set of rotations. KZG10 accepts at most one value if and only if its generator is not 0. If the changed element is the evaluation of a quotient chunk, the answer is the error for a non-zero quotient equation, for every commitment scheme, if xi is neither 0 nor a root of the vanishing polynomial. (C70 and C71 say which changes of several evaluations are not noticed.)", "quantifier": "all fields, circuits the verifier can read, commitment schemes, Fiat-Shamir generators, accepted proofs, kinds of columns, positions and replacement values", "why_tests_cant": "A test can alter some positions of some proofs. That no altered position of any accepted proof passes, for any circuit shape, needs an argument about how all claims are combined.", "anchors": ["src/turbo_plonk.rs: TurboPlonk::verify", "src/multiproof/piop/mod.rs: Multiopen::verify", "src/turbo_plonk.rs: TPProof"]}
{"id": "C77", "title": "Which opening proofs are accepted in place of another", "statement": "The opening proof at the end of a proof goes into no challenge. In an accepted proof, verify()'s answer to any other opening proof is that of a single check of the commitment scheme, for a commitment and a value that do not depend on the opening proof. Over KZG10 the opening proofs (w', random_v') accepted in place of (w, random_v) are exactly those with (tau - x3)(w' - w) = (random_v - random_v') gamma_g, all others give the error for a failed opening: so another group element is rejected unless tau is x3, another scalar is rejected unless gamma_g is 0, and leaving out a scalar 0 or writing it makes no difference.", "quantifier": "all fields, circuits, commitment schemes, Fiat-Shamir generators, accepted proofs and replacement opening proofs", "why_tests_cant": "A test tries a few altered opening proofs; the claim is about all of them, for every accepted proof.", "anchors": ["src/turbo_plonk.rs: TurboPlonk::verify", "src/multiproof/piop/mod.rs: Multiopen::verify", "src/multiproof/mod.rs: Proof"]}
{"id": "C78", "title": "The multi-opening checks one combination of all claimed evaluations", "statement": "Let the multi-opening's verify() accept a proof for some columns, and let the evaluations registered with the columns at the points of their rotations be replaced by any others. If the proof has an opening value for each set of rotations, then verify() accepts the same proof again if one linear combination of all evaluations, whose coefficients anyone can compute from the proof (powers of x1 and x2, Lagrange coefficients at x3), has kept its value, and does not accept otherwise if the commitment scheme accepts at most one value for a commitment, a point and an opening proof. Hence (if x1 and x2 are not 0), however the evaluations of all other columns are changed, there is exactly one value of a given column at a given point of its rotations that makes verify() accept: since no evaluation goes into a challenge, each evaluation can be chosen last.", "quantifier": "all fields, domains, lists of columns, commitment schemes, Fiat-Shamir generators, accepted proofs and replacement evaluations", "why_tests_cant": "A test tries some wrong evaluations, which are rejected; that a compensating change exists for every one of them, and which ones are accepted, is a statement about all of them.", "anchors": ["src/multiproof/piop/mod.rs: Multiopen::verify", "src/multiproof/poly.rs: construct_lagrange_basis", "src/oracles/witness.rs: register_eval_at_challenge"]}
{"id": "C79", "title": "Which quotient evaluations are accepted in place of others", "statement": "Let verify() accept a proof with k quotient commitments, and let its quotient evaluations be replaced by any others, at least k of them. verify() accepts again if the sum of y^i times the i-th evaluation (i < k) is kept for two values of y, xi^n and x1, and accepts no others, provided that the commitment scheme accepts at most one value for a commitment, a point and an opening proof, x1 and x2 are not 0 and xi is no root of the vanishing polynomial (and there are as many witness commitments as witness columns, and an opening value for each set of rotations). Both values of y can be computed from the proof and do not depend on its quotient evaluations. Hence an accepted proof with at least three quotient commitments is one of at least as many accepted proofs as there are field elements: t times the coefficients of (X - xi^n)(X - x1) can be added to the first three quotient evaluations, for every t.", "quantifier": "all fields, circuits, commitment schemes, Fiat-Shamir generators, accepted proofs and replacement evaluations", "why_tests_cant": "A test that changes quotient evaluations at random sees rejections; the accepted ones are a set of co-dimension two, and that it is exactly this set is a statement about all evaluations.", "anchors": ["src/turbo_plonk.rs: verify (quotient_chunk_oracles, t_part)", "src/multiproof/piop/mod.rs: Multiopen::verify", "src/turbo_plonk.rs: prove (quotient_chunks_evals)"]}
