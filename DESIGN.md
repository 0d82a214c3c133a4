# A machine-checked model of zero-over-k in Rocq

zero-over-k is a PLONK-style proving system: a user describes columns ("oracles") and
polynomial constraints over them ("virtual oracles", VOs), optionally copy constraints
(a permutation argument) and lookups (a plookup-style argument), and obtains
`prove` / `verify` built on a homomorphic polynomial commitment.

This document says what is modelled, how every property of `properties.jsonl` is stated
and proved, what is trusted, and what was found wrong in the code.

## 1. Approach

* One shallow embedding, in Gallina, of the code in `/repo/src`, function by function.
  Every definition cites the file and lines it models and names its simplifications.
* The field is an arbitrary mathcomp `fieldType`. Polynomials in the model are lists of coefficients
  with trailing zeros trimmed (`lpoly`), as arkworks' `DensePolynomial`, and compute; `ProofPoly.v`
  bridges them to mathcomp's `{poly F}`, which is what statements use. Columns are `seq F`.
  Facts that need an NTT-friendly field (two-adic root of unity, coset generator)
  take a field environment `env` satisfying an explicit, satisfiable predicate (`fenv_ok`);
  the prime field of 97 elements is the concrete instance used by the examples.
* A Rust function that can panic returns `res A := Ok a | Err e | Panic`. Errors are data.
  Index out of bounds, `unwrap` on `None`, failing `assert!`, `usize` underflow and division by
  zero are `Panic`.
* The polynomial commitment is a record of operations (`pcs`) with separate records of laws:
  `pcs_correct` (homomorphism, honest openings verify) and `pcs_binding` (an idealised
  extractability, used only for soundness). A KZG instance in the trapdoor model satisfies the first,
  a "commitment = polynomial" instance satisfies both, so neither is vacuous.
* The Fiat-Shamir RNG is a record `{init; absorb; squeeze}`; `SimpleHashFiatShamirRng` is
  an instance over an arbitrary hash.
* Statements about soundness are algebraic and exact: "for all challenges outside a set of at
  most K values, ..." (`at_most`) — no probability is postulated. Challenges are drawn one after the
  other (`scripted`), each after the moves that precede it; no random-oracle claim is made.
* If a property is false of the code, the theorem is named `..._refuted`, exhibits the
  counterexample, and the finding is listed in section 5; what does hold is proved beside it, or
  as a property of its own (C55-C79).

### File layout (rocq/theories)

| file | content |
|---|---|
| `Base.v` | outcome type, indexing, strings, small list library, `ring`/`field` set-up |
| `Model*.v` | the model (no proofs) |
| `Field97.v`, `Concrete.v`, `Run97.v` | F_97 as a field, concrete domains, circuits and a complete concrete run |
| `Spec*.v` | independent specifications used in statements |
| `Proof*.v` | lemmas |
| `Props*.v` | the property theorems, one block per property, with non-vacuity examples and `Print Assumptions` |

### What is modelled

| source | model | remarks |
|---|---|---|
| `vo/expression.rs`, `vo/query.rs`, `vo/virtual_expression.rs`, `vo/generic_vo.rs`, `vo/generic_lookup_vo.rs`, `oracles/rotation.rs`, `oracles/query.rs` | `ModelVO.v` | complete except `Display`/`Debug` |
| `vo/precompiled/*.rs`, `vo/precompiled_lookups/*.rs` | `ModelGates.v` | complete |
| `oracles/{traits,witness,instance,fixed}.rs`, `util.rs`, `piop/*` helpers, query-set building | `ModelOracle.v` | complete |
| `commitment.rs`, `rng.rs` | `ModelPC.v` | KZG in the trapdoor model (section 3); the hash and serialisation are parameters |
| `permutation/mod.rs`, `permutation/grand_product.rs` | `ModelPermutation.v` | complete |
| `lookup/mod.rs`, `lookup/permute.rs`, `lookup/subset_equality.rs` | `ModelLookup.v` | complete |
| `indexer.rs`, `data_structures.rs` | `ModelIndexer.v`, `ModelProtocol.v` | complete |
| `multiproof/**` | `ModelMultiproof.v` | complete |
| `piop/prover.rs`, `piop/verifier.rs`, `turbo_plonk.rs`, `mock_prover.rs` | `ModelProtocol.v` | complete; `universal_setup`/`prepare_keys` only as "some key of the scheme" |
| arkworks `EvaluationDomain`, `DensePolynomial` | `ModelPoly.v` | by specification: see section 3 |
| `concrete_oracle.rs` | — | not in the module tree (`lib.rs` does not declare it), never compiled |
| `error.rs`, `*/error.rs` | `Base.v` | error constructors only |
| `tests/**`, `vo/precompiled/tests.rs`, `#[cfg(test)]` blocks | — | not modelled |

## 2. Properties

| id | modelled | proof |
|---|---|---|
| C01 | `Expression`, `evaluate`, operators | induction on expressions; both into F and into {poly F} with Horner evaluation |
| C02 | `Expression::degree` | induction; `size_mul_leq`, `size_add` |
| C03 | `VirtualExpression::to_expression`, `GenericVO::configure` | induction on expression / on query list; assoc lookups under unique labels |
| C04 | `GenericLookupVO::configure` | induction on the table query list |
| C05 | all precompiled gates | computation on the (closed) gate ASTs |
| C06-C11 | gate expressions | field identities; C08 is refuted; C10 by induction on rows; C11 case analysis with characteristic side condition |
| C12-C14 | `compute_extended_evals`, `query_in_coset`, `query_at_omega_in_original_domain` | domain algebra; C14 refuted, exact characterisation of the failing inputs |
| C15 | `query_in_evals_form` | Lagrange interpolation, uniqueness by root counting |
| C16 | `Rotation` | primitive-root arithmetic |
| C17, C18 | verifier oracles, `evaluate_query_set`, evaluation registration loops | induction over oracles / query sets |
| C19 | `compute_zh_evals` | per-branch domain algebra |
| C20-C22 | `Indexer::index` | degree bounds; C20, C21 refuted (off by one, underflow) with exact conditions |
| C23-C25 | `PermutationArgument`, `GrandProductArgument` | chunking lemmas; telescoping products; root counting in gamma, beta |
| C26, C27 | `permute_for_lookup` | loop invariants, multiset reasoning |
| C28-C33 | `LookupArgument`, `SubsetEqualityArgument` | telescoping, chain argument, root counting; C30, C32, C33 refuted with the conditions under which they hold |
| C34 | prover coset formulas vs verifier formulas | unfold both to the same polynomial expression |
| C35-C38 | quotient rounds of prover and verifier | linear combination and divisibility by z_h, root counting in alpha and xi; C35 refuted for one pair of constraints |
| C39-C43 | `multiproof` | Lagrange/vanishing polynomials; completeness of batched opening; C41, C43 refuted; C42 root counting in x1..x4 |
| C44, C55 | `prove`, `verify` | composition of C24, C28, C34, C37, C40, C46; C44 refuted when the quotient does not fit (C20), C55 is the general positive form |
| C59 | `prove` | every fallible step of every round succeeds (C24, C26, C27 for the products and the permuted table); root counting for the denominators |
| C60 | `prove` with the generator as a state machine | each round's uses of the generator are collected from its equation; two runs making the same calls draw the same values |
| C61 | columns and their interpolating polynomials | the difference of the two polynomials is interpolated through the changed rows and zeros at the opened points; n roots for the converse |
| C62 | prove with scripted challenges | a returned proof's trace contains grand products whose row equations hold (C25 counts the betas and gammas) and permuted lookup columns (C31 counts the thetas) |
| C63 | verify on a returned proof with one claimed evaluation replaced (`SpecUnopened.v`) | verify's numerator is affine in the claim; the openings are those of the original proof (C40) |
| C64 | MockProver::prove, then prove and verify with the challenges given one by one (`scripted`) | the identity verify checks at xi is between polynomials fixed before xi; at the violated row it is a non-zero polynomial in alpha (bad_alphas); acceptance by C44 and C50 |
| C65 | prove with the challenges given one by one (`scripted`) | one direction reads the conditions off a run that ended (`run_combined`, `run_products`, `run_denominators`, `run_points` in ProofExact.v); the other builds the run (`prove_trace` in ProofProve.v); the failing runs by cases on the first round that fails |
| C66 | prove, verify and MockProver::prove with two domain sizes that round up to the same power of two | `domain_new` only depends on the rounded size; in verify the size is used again for the unit polynomials (same polynomial as long as the index fits, `unit_poly_short`) and for the power of xi that recombines the quotient chunks (`chunks_sum`) |
| C67 | verify; `opened` and `answered` (SpecClaims.v) say which cells the columns are opened at | an accepting run is taken apart (`run_of` in ProofClaims.v): an evaluation found in a column comes from an entry of the query set (`registered_declared`), an expression with a value has a value at each of its leaves (`eval_res_leaf`), the permutation argument reads each copied column (`perm_open_queries`) |
| C68 | verify over two commitment schemes related by a homomorphism (`pcs_seen`, SpecAlgebraic.v) | every function of verify commutes with replacing the commitments (ProofSeen.v, one lemma per function) |
| C69 | verify over KZG10 on group elements given as combinations of the SRS (`algebraic`, `element_of`) | the scheme of combinations with the exact check is binding, so C57 applies; the key of the scheme is only used in the last check (`verdict_check`); a false claim passes it only if tau is a root of a non-zero polynomial of degree at most N or gamma is one value (`false_opening`); C68 moves the result to the group elements |
| C70 | verify on a proof with other quotient evaluations | only the first k are indexed, and no evaluation is absorbed, so the rest of the run is the same |
| C71 | verify on a proof whose first two quotient evaluations are moved by x1 delta and -delta (`shift_quotient`) | the multi-opening only sees the sum of the two weighted with x1 (`mo_shift`), the identity is affine in delta with slope z_h(xi)(x1 - xi^n) (`check_sum_shift`), and no evaluation is absorbed, so the challenges stay; the openings of a proof returned by prove are accepted by C40 whatever the witness |
| C72 | verify on every output of prove, satisfied or not | the openings are accepted (as in C71), so only the quotient check can fail; on a row the combined constraints of an honest run equal the gates combined with alpha (`num_row`), so the committed quotient is exact iff these vanish (`exact_quotient`), and otherwise the identity is a non-zero polynomial of bounded degree that is fixed before xi (`few_xi`) |
| C73 | z_h outside the hypotheses of C55 for which honest proofs are rejected | (a) the evaluations of c(X^n − 1) on a coset of n points are those of its remainder (the truncated polynomial is the constant combination of both), so the committed quotient solves another equation and `few_xi` applies; (b) an explicit run over F97 with a transposition as permutation and z_h vanishing exactly on rows 0..4: the rejection is computed, the side conditions are proved |
| C74 | the two numbers of usable rows | (a) `construct_agg_poly` computes n − 1 − u in unsigned arithmetic, after every lookup column is built (inversion of a returning run); (b), (c) explicit runs over F97: the rejection is computed, every other hypothesis of C55 and C59 is proved |
| C75 | what the opening proof shows of a column | `mp_q_evals` of every returning run, from the inversion of `prove` and the shape of the sorted opening sets; a lone column gives one more evaluation than its rotations, so the lower bound of C61 applies to it |
| C76 | a single changed evaluation is noticed | the claims before and after the change differ in one value of one opening point of one group; the fold with powers of x1 and x2 and the Lagrange interpolation then give different values at x3 (`ProofSingle`, `ProofSingle2`), so a scheme that accepts one value only rejects; for quotient chunks the quotient equation changes by a non-zero term |
| C77 | which opening proofs are accepted in place of another | the opening proof is read only by the last `pc_check`; over KZG the two equations are subtracted |
| C78 | the multi-opening checks one combination of all claimed evaluations | `SpecLinear.total_claim`; the final value is the old one minus the change of the total claim, which is affine in each evaluation with a coefficient that is not zero |
| C79 | which quotient evaluations are accepted in place of others | `with_quotient_evals`, `SpecRequote.moved3`; the quotient identity keeps the sum at xi^n, and the total claim of C78 changes by a non-zero multiple of the sum at x1 |
| C45 | `verify` | refuted: a forged proof for every readable circuit |
| C46 | transcripts | the two transcripts absorb the same messages, round by round |
| C47 | transcripts | refuted: public inputs are not absorbed; commitments are bound |
| C48 | `verify` | refuted: wrong lengths panic; with right lengths a totality proof through every round |
| C49, C58 | `verify` on the state left by earlier calls | simulation between two oracle states; C49 refuted for short proofs, C58 is the exact dependence |
| C50 | `MockProver` | induction over rows and VOs |
| C51 | `commitment.rs` KZG | module algebra |
| C52, C54 | counting in `prove`, `info` | list-length arithmetic |
| C53 | `rng.rs` | induction on history |
| C56, C57 | `verify` | C38 + C42 for one interactive protocol; C57 adds C25, C29, C31 to start from a violated gate, copy constraint or lookup |

`MANIFEST.json` names the theorems of each property; `tools/manifest.py` regenerates it from the
`Props*.v` files and `tools/notes.json`.

## 3. Simplifications (global)

* `usize` is `nat`: no overflow (underflow of subtraction is a panic, as in a debug build).
* `GeneralEvaluationDomain` is only the radix-2 domain (the mixed-radix one is used for fields
  with a small subgroup, which none of the repo's curves needs). FFTs are modelled by their
  specification (sums over powers of the root), i.e. arkworks' FFT is trusted.
* Parallelism (`cfg_iter`) is sequential: the closures are pure.
* Serialisation to bytes of commitments and field elements is an abstract function;
  `Display`/printing is not modelled.
* KZG: group elements are represented by their discrete logarithm, i.e. a commitment to `p` with
  blinding `r` is `p(tau) + gamma r(tau)` and the pairing check is the equation it tests. This is a model
  in which the group equations of `commitment.rs` and of ark-poly-commit's `KZG10` hold; it says
  nothing about hardness. Soundness is proved of it only against algebraic provers (C69), i.e. provers
  whose group elements are known combinations of the SRS chosen without knowledge of tau and gamma.
* A `BTreeMap`/`BTreeSet` is an insertion-sorted list (label order: byte order of the string);
  `BTreeMap<F, F>` inside one opening set keeps insertion order, its consumers are symmetric (proved: `c39_order_of_points`).
* Mutable borrows are state passing: `tp_verify` returns the verdict and the oracles as it leaves
  them, also when it fails.
* The prover's zk randomness is a state with a `zk_rand` function; `prove` is deterministic in it.

## 4. Trusted base

* Coq 8.16.1's kernel, including its `vm_compute` reduction, used by concrete examples.
* mathcomp 1.15 (`all_ssreflect`, `all_algebra`), zify/lia from the standard library: checked by the
  same kernel; no axioms.
* That the definitions of `Model*.v` say what the cited Rust lines do, and that arkworks' field,
  domain, polynomial and commitment operations satisfy the specifications of section 3.
* Hypotheses that theorems take explicitly, none of them an axiom:
  `fenv_ok` (the field constants are what arkworks documents), `pcs_correct` (C40, C44, C45, C55, C59), `pcs_total` (C59),
  `pcs_binding` (C42, C56, C57; proved of the scheme used in C69), `scripted` challenges instead of a hash (C42, C56, C57, C69).
* No theorem claims anything about running time, side channels, zero knowledge, or the hardness
  assumptions behind KZG and the hash.

## 5. Findings

Each is a theorem, unless marked (obs.): then it is visible in a hypothesis of the named theorem.

| # | finding | where | theorem |
|---|---|---|---|
| F1 | Multi-opening verification zips the opening sets with `proof.q_evals` and never compares lengths. With `q_evals = []` nothing is checked: any claims are accepted, and so is a `Proof` of any statement. | `multiproof/piop/mod.rs` `verify` | `c41_multiopen_soundness_refuted`, `c45_soundness_refuted` |
| F2 | Evaluations, verifier key, public inputs and preprocessed commitments are never absorbed in the transcript; two claims can be shifted against each other, and a public input exchanged. | `turbo_plonk.rs`, `multiproof` | `c43_individual_claims_refuted`, `c47_public_input_refuted` |
| F3 | The first lookup constraint gets the power of alpha of the last permutation constraint. | `piop/prover.rs`, `piop/verifier.rs` | `c35_distinct_powers_refuted` |
| F4 | Lookups take `usable_rows` from the permutation argument, which is 0 for `dummy()`/`empty()`: then every lookup is vacuous. | `lookup/mod.rs` | `c30_*_refuted` |
| F5 | The verifier ignores rotations of fixed and instance queries in lookup expressions (tables: both sides). | `lookup/mod.rs` | `c32_rotated_fixed_query_refuted` |
| F6 | `index` underflows for linear constraints and empty constraint lists, and reports `QuotientTooSmall` for quadratic ones on at most 4 rows. | `indexer.rs` | `c21_*` |
| F7 | `Domain::new(quotient_degree)` is one point too small when `quotient_degree` is a power of two: honest proofs are then rejected. | `indexer.rs` | `c20_quotient_too_big_refuted`, `c44_quotient_degree_refuted` |
| F8 | Lookup expressions of degree > 1 fail a prover assertion. Their degrees are not counted by the indexer either. | `lookup/mod.rs` | `c33_high_degree_panics_refuted` |
| F9 | A backwards rotation landing whole turns behind row 0 indexes out of bounds; a rotation by n or more rows panics. | `oracles/traits.rs` | `c14_*_refuted`, `c16_large_rotations_panic` |
| F10 | `PlonkArith4` reads its fourth wire from witness column 2. | `vo/precompiled/plonk_arith.rs` | `c08_fourth_wire_refuted` |
| F11 | With duplicate labels the last oracle wins. | `piop`, `vo` | `c03_duplicate_labels_refuted` |
| F12 | `verify` panics on a proof with wrong lengths; too few witness commitments leave those of an earlier proof in force. | `turbo_plonk.rs` | `c48_wrong_lengths_panic_refuted`, `c49_history_refuted` |
| F13 | Permutation and `q_blind` oracles have no rotation unless the user adds one; without it their claimed evaluations are not opened at all. | `data_structures.rs` | `c63_q_blind_not_opened`, `c63_sigma_not_opened` |
| F14 | `MockProver` ignores copy constraints and lookups, and its `verify` accepts everything. | `mock_prover.rs` | `c50_no_copy_no_lookup`, `c50_mock_verify` |
| F15 | Grand products panic when a denominator is zero (the challenge meets a cell). | `permutation`, `lookup` | `c65_prove_outcome`, C24, C28, C55 |
| F16 | `compute_zh_evals` truncates a z_h of degree at least the size of the coset. | `indexer.rs` | `c73_scaled_vanishing_polynomial` |
| F17 | The `Delta` gate does not range-check the first cell. The comment on `DeltaXorAnd` has 9c where the (right) code has 9d. | `vo/precompiled/logic.rs` | `c10_*`, `c11_logic_gate` |
| F18 | `compute_quotient_degree` assumes a z_h of degree n: with a z_h that vanishes only on the usable rows the permutation quotient need not fit, and honest proofs are rejected. | `indexer.rs` | `c73_usable_rows_vanishing_polynomial` |
| F19 | The number of usable rows is passed twice and never checked: lookups need the two to agree and 0 < usable_rows < n, otherwise honest proofs are rejected or prove panics. | `indexer.rs`, `lookup`, `piop/prover.rs` | `c74_row_counts_disagree`, `c74_no_usable_rows`, `c74_too_many_usable_rows` |
| F20 | `domain_size` is assumed to be a power of two without check. | `turbo_plonk.rs` | `c66_prove_rounds_up`, `c66_verify_does_not` |
| F21 | A copied witness column whose declared rotations lack `curr` makes `verify` fail with `MissingConcreteEval`. | `permutation/mod.rs` | `c67_copied_columns_opened`, ex_c67_missing |
| F22 | Two rotations meeting the same row (`curr` and a turn by n) give `RepeatedRotation` or a panic. | `multiproof` | `c65_equivalent_rotations_refused`, `c65_prove_outcome` |
| F23 | `prove` does not ask for as many blinded rows as there are openings of a column; with fewer the openings distinguish witnesses. | `turbo_plonk.rs`, `permutation`, `lookup` | `c61_enough_rows_refuted` |
| F24 | As F13: because of it a false statement can be made acceptable by changing the claimed evaluation of `q_blind` or of one permutation column in the proof `prove` returns for it. | `data_structures.rs:139-152`, `fixed.rs` | `c63_q_blind_not_opened`, `c63_sigma_not_opened`, `ex_c63_q_blind` |
| F25 | The number of quotient evaluations is not compared with the number of quotient commitments: too few panic, additional ones are ignored, so every accepted proof can be turned into another accepted proof. | `turbo_plonk.rs:779-790` | `c70_accepted_proofs_are_malleable`, `c70_missing_quotient_evals_panic` |
| F26 | Evaluations are not absorbed before x1 is drawn (F2), and the quotient chunks are opened in one set: two of their claims can be moved so that any quotient identity holds. A proof with the right number of `q_evals` can be forged for any gates and any public input; the soundness of C56, C57 and C69, where the claims are sent before x1, does not carry over to the transcript of the code. | `turbo_plonk.rs:779-790`, `multiproof/piop/mod.rs:54` (states the opposite; `turbo_plonk.rs:414` has it as a TODO) | `c71_forged_from_any_witness`, `c71_accepted_proof_reused`, `c79_three_quotient_evaluations` |
| F27 | The opening proof contains the value at x3 of every column whose set of rotations no other opened column declares, besides its values at the rotated xi. To hide such a column takes one blinded row more than declared rotations; nothing checks or documents this. (The aggregated polynomial f is blinded for its opening at x3, the columns are not.) | `multiproof/piop/prover.rs:196-200`, `multiproof/piop/prover.rs:183` | `c75_lone_column_opened_at_x3`, `c75_one_more_blinded_row_needed` |

## 6. Assumptions listed

Every `Theorem` of every `Props*.v` is followed by `Print Assumptions`; for each one the answer is
`Closed under the global context`: no axiom of the standard library, of mathcomp, or of this
development is used. No `Admitted`, `Axiom`, `Parameter`, `Conjecture`, or section-less
`Variable`/`Hypothesis` occurs; no functor, module type or `Declare Module`.
