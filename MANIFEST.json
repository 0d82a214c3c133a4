{
 "claims": [
  {
   "property": "C01",
   "status": "proved",
   "theorems": [
    "c01_operators_are_field_operations",
    "c01_value_is_meaning",
    "c01_polynomial_evaluation",
    "c01_fallible_leaves"
   ],
   "note": ""
  },
  {
   "property": "C02",
   "status": "proved",
   "theorems": [
    "c02_degree_bound",
    "c02_degree_total"
   ],
   "note": ""
  },
  {
   "property": "C03",
   "status": "proved",
   "theorems": [
    "c03_unconfigured",
    "c03_configure_total",
    "c03_configure_resolves",
    "c03_duplicate_labels_refuted"
   ],
   "note": ""
  },
  {
   "property": "C04",
   "status": "proved",
   "theorems": [
    "c04_unconfigured",
    "c04_configure_ok_iff",
    "c04_first_offender",
    "c04_configure_resolves"
   ],
   "note": ""
  },
  {
   "property": "C05",
   "status": "proved",
   "theorems": [
    "c05_gates_declare_their_queries",
    "c05_configured_gates_have_their_rotations",
    "c05_lookups_declare_their_queries"
   ],
   "note": ""
  },
  {
   "property": "C06",
   "status": "proved",
   "theorems": [
    "c06_mul_gate"
   ],
   "note": ""
  },
  {
   "property": "C07",
   "status": "proved",
   "theorems": [
    "c07_plonk_gate"
   ],
   "note": ""
  },
  {
   "property": "C08",
   "status": "partial",
   "theorems": [
    "c08_plonk4_equation",
    "c08_fourth_wire_unconstrained",
    "c08_fourth_wire_refuted"
   ],
   "note": "The property as stated is false of the code: the fourth wire query has index 2. Proved: the exact equation, independence of witness column 3, and a refutation."
  },
  {
   "property": "C09",
   "status": "proved",
   "theorems": [
    "c09_rescue_gate"
   ],
   "note": ""
  },
  {
   "property": "C10",
   "status": "proved",
   "theorems": [
    "c10_delta_row",
    "c10_delta_last_row_free",
    "c10_delta_accumulates"
   ],
   "note": ""
  },
  {
   "property": "C11",
   "status": "proved",
   "theorems": [
    "c11_logic_gate"
   ],
   "note": ""
  },
  {
   "property": "C12",
   "status": "proved",
   "theorems": [
    "c12_coset_query",
    "c12_coset_query_rotations_below_n"
   ],
   "note": ""
  },
  {
   "property": "C13",
   "status": "proved",
   "theorems": [
    "c13_row_query",
    "c13_row_value_is_polynomial_value"
   ],
   "note": ""
  },
  {
   "property": "C14",
   "status": "partial",
   "theorems": [
    "c14_row_query_out_of_bounds_refuted",
    "c14_coset_query_out_of_bounds_refuted",
    "c14_rotations_below_n_in_bounds_partial"
   ],
   "note": "False as stated: a backwards rotation by exactly n rows (or any landing whole turns behind row 0) indexes out of bounds; refuted for every column. Proved: in bounds for every rotation by fewer than n rows; C12/C13 give the exact panic condition."
  },
  {
   "property": "C15",
   "status": "proved",
   "theorems": [
    "c15_lagrange_query",
    "c15_lagrange_basis_exists"
   ],
   "note": ""
  },
  {
   "property": "C16",
   "status": "proved",
   "theorems": [
    "c16_rotation_points",
    "c16_large_rotations_panic",
    "c16_same_point_iff_same_row"
   ],
   "note": ""
  },
  {
   "property": "C17",
   "status": "proved",
   "theorems": [
    "c17_last_registration_wins",
    "c17_other_points_unaffected",
    "c17_missing_evaluation"
   ],
   "note": ""
  },
  {
   "property": "C18",
   "status": "proved",
   "theorems": [
    "c18_evaluations_reach_their_oracle"
   ],
   "note": ""
  },
  {
   "property": "C19",
   "status": "proved",
   "theorems": [
    "c19_zh_inverses",
    "c19_zh_inverses_vanishing"
   ],
   "note": ""
  },
  {
   "property": "C20",
   "status": "partial",
   "theorems": [
    "c20_quotient_too_big_refuted",
    "c20_quotient_fits_partial"
   ],
   "note": "False as stated: Domain::new(quotient_degree) has too few points when the quotient degree is itself the size of the domain; refuted by a degree-4 gate on 4 rows (index Ok, 8 points, quotient degree 8). Proved: quotient_degree bounds the degree of every quotient, is at most the number of points, and the quotient fits whenever the two differ."
  },
  {
   "property": "C21",
   "status": "partial",
   "theorems": [
    "c21_low_degree_panics_refuted",
    "c21_no_constraints_panics_refuted",
    "c21_linear_panics_refuted",
    "c21_total_otherwise"
   ],
   "note": "False as stated: index() underflows for linear constraints, for empty constraint lists and whenever the largest degree is below deg z_h. Proved: that, and that in every other case (in a field with a large enough two-adic subgroup) it returns Ok, or QuotientTooSmall under an exact condition."
  },
  {
   "property": "C22",
   "status": "proved",
   "theorems": [
    "c22_scaling_suffices"
   ],
   "note": ""
  },
  {
   "property": "C23",
   "status": "proved",
   "theorems": [
    "c23_number_of_z_polys",
    "c23_prover_builds_that_many",
    "c23_alphas_cover_constraints",
    "c23_wrong_alpha_count_panics"
   ],
   "note": ""
  },
  {
   "property": "C24",
   "status": "proved",
   "theorems": [
    "c24_permutation_completeness",
    "c24_constructed_rows_hold",
    "c24_open_vanishes"
   ],
   "note": ""
  },
  {
   "property": "C25",
   "status": "proved",
   "theorems": [
    "c25_permutation_soundness",
    "c25_identity_labels",
    "c25_open_soundness"
   ],
   "note": ""
  },
  {
   "property": "C26",
   "status": "proved",
   "theorems": [
    "c26_permute_for_lookup"
   ],
   "note": ""
  },
  {
   "property": "C27",
   "status": "proved",
   "theorems": [
    "c27_permute_panics_iff"
   ],
   "note": ""
  },
  {
   "property": "C28",
   "status": "proved",
   "theorems": [
    "c28_lookup_completeness",
    "c28_constructed_rows_hold",
    "c28_open_vanishes"
   ],
   "note": ""
  },
  {
   "property": "C29",
   "status": "proved",
   "theorems": [
    "c29_lookup_soundness",
    "c29_open_soundness"
   ],
   "note": ""
  },
  {
   "property": "C30",
   "status": "partial",
   "theorems": [
    "c30_verifier_accepts_refuted",
    "c30_dummy_permutation_refuted",
    "c30_matching_usable_rows_partial"
   ],
   "note": "False as stated: dummy()/empty() carry usable_rows = 0, so the lookup's last-row selector sits on row 0 and constant permuted columns satisfy every constraint for arbitrary columns; refuted for every such index, on the constraint polynomials and on the verifier's quotient check. Proved: membership is enforced (bounded bad beta, gamma) whenever the permutation info carries the index's number of usable rows."
  },
  {
   "property": "C31",
   "status": "proved",
   "theorems": [
    "c31_theta_separates",
    "c31_prover_refuses"
   ],
   "note": ""
  },
  {
   "property": "C32",
   "status": "partial",
   "theorems": [
    "c32_verifier_columns",
    "c32_same_columns_partial",
    "c32_rotated_fixed_query_refuted"
   ],
   "note": "False as stated: the verifier drops the rotation of fixed and instance queries in lookup expressions; refuted on a concrete run. Proved: the exact value the verifier computes, and equality with the prover's polynomials when those queries are unrotated."
  },
  {
   "property": "C33",
   "status": "partial",
   "theorems": [
    "c33_high_degree_panics_refuted",
    "c33_linear_expressions_partial"
   ],
   "note": "False as stated: any compressed expression of degree >= n makes the prover's assertion panic; refuted in general and on a concrete square. Proved: linear expressions of any shape complete."
  },
  {
   "property": "C34",
   "status": "proved",
   "theorems": [
    "c34_permutation_same_identity",
    "c34_lookup_same_identity"
   ],
   "note": ""
  },
  {
   "property": "C35",
   "status": "partial",
   "theorems": [
    "c35_schedule",
    "c35_distinct_powers_refuted",
    "c35_separation_partial"
   ],
   "note": "False as stated: the first lookup constraint is weighted by the same power of alpha as the last permutation constraint (both schedules start from the last power handed out), so one pair of constraints is summed unweighted; refuted. Proved: the exact schedule, and separation for every constraint outside that pair and inside it whenever usable_rows > 0 or one of the two arguments is absent."
  },
  {
   "property": "C36",
   "status": "proved",
   "theorems": [
    "c36_chunks_recombine",
    "c36_quotient_round"
   ],
   "note": ""
  },
  {
   "property": "C37",
   "status": "proved",
   "theorems": [
    "c37_piop_completeness",
    "c37_quotient_fits",
    "c37_hypotheses_in_runs"
   ],
   "note": ""
  },
  {
   "property": "C38",
   "status": "proved",
   "theorems": [
    "c38_piop_soundness"
   ],
   "note": ""
  },
  {
   "property": "C39",
   "status": "proved",
   "theorems": [
    "c39_lagrange",
    "c39_lagrange_panics",
    "c39_vanishing",
    "c39_order_of_points"
   ],
   "note": ""
  },
  {
   "property": "C40",
   "status": "proved",
   "theorems": [
    "c40_multiopen_completeness",
    "c40_x3_collision"
   ],
   "note": ""
  },
  {
   "property": "C41",
   "status": "partial",
   "theorems": [
    "c41_multiopen_soundness_refuted"
   ],
   "note": "False as stated: the verifier zips the opening sets with proof.q_evals without comparing lengths, so a proof with no q_evals, the commitment to zero and an opening of zero is accepted for every well-formed set of claims, true or false; refuted for every correct commitment scheme and transcript. C42 proves soundness for proofs with the right number of q_evals."
  },
  {
   "property": "C42",
   "status": "proved",
   "theorems": [
    "c42_batched_claims_bound",
    "c42_claims_bound"
   ],
   "note": ""
  },
  {
   "property": "C43",
   "status": "partial",
   "theorems": [
    "c43_only_batched_claims_matter",
    "c43_individual_claims_refuted"
   ],
   "note": "False as stated: x1 is drawn without absorbing the claims, and the verdict depends on the claims only through sums weighted by powers of x1 (proved); shifting e1 by x1*delta and e2 by -delta is never noticed; refuted. C42 proves that claims fixed before x1 are bound individually."
  },
  {
   "property": "C44",
   "status": "partial",
   "theorems": [
    "c44_completeness_all_rows_partial",
    "c44_quotient_degree_refuted"
   ],
   "note": "False as stated when the quotient degree equals the number of points of the extended domain (the indexer accepts this); refuted by a degree-4 gate on 4 rows: prove returns a proof, verify answers QuotientNotZero. Proved: completeness for z_h = X^n - 1 whenever the two numbers differ; the general form is C55."
  },
  {
   "property": "C45",
   "status": "partial",
   "theorems": [
    "c45_soundness_refuted"
   ],
   "note": "False as stated: for every readable circuit, every transcript and correct scheme, and arbitrary commitments, a proof with no q_evals and made-up evaluations is accepted (consequence of C41); concretely for w^2 = 5 over F_97, which no witness satisfies. C56 and C57 prove the soundness that holds: interactive, with the right number of q_evals."
  },
  {
   "property": "C46",
   "status": "proved",
   "theorems": [
    "c46_same_challenges",
    "c46_verifier_challenges"
   ],
   "note": ""
  },
  {
   "property": "C47",
   "status": "partial",
   "theorems": [
    "c47_commitments_bound",
    "c47_proof_history_bound",
    "c47_public_inputs_not_bound",
    "c47_public_input_refuted"
   ],
   "note": "False as stated: only commitments in the proof are absorbed, not the public inputs, verifier key or preprocessed commitments. Proved: the verdict on any proof is the same for all public inputs agreeing at the queried points (which the forger knows), with a concrete accepted false public input; and, as the true part, that the commitments of a proof are bound up to hash collisions. For a whole proof (c47_proof_history_bound): the nine challenges are those drawn along its full history, including the multi-opening messages, and two proofs with different histories get different seeds or exhibit a hash collision."
  },
  {
   "property": "C48",
   "status": "partial",
   "theorems": [
    "c48_wrong_lengths_panic_refuted",
    "c48_right_lengths_partial"
   ],
   "note": "False as stated: for every readable circuit, any wrong length (other than of the witness or quotient commitments) makes verify panic. Proved: with the right lengths verify never panics, whatever the contents, unless challenges coincide with opened points."
  },
  {
   "property": "C49",
   "status": "partial",
   "theorems": [
    "c49_history_partial",
    "c49_history_refuted"
   ],
   "note": "False as stated: a proof that carries fewer witness commitments than there are witness columns is judged with the commitments an earlier proof left behind; a concrete run shows such a proof accepted after an accepted one and rejected on fresh oracles. Proved: for proofs with all witness commitments the verdict is independent of any history of calls, whatever their outcomes; C58 gives the exact dependence in general."
  },
  {
   "property": "C50",
   "status": "proved",
   "theorems": [
    "c50_mock_accepts_iff",
    "c50_mock_first_failure",
    "c50_no_copy_no_lookup",
    "c50_mock_verify"
   ],
   "note": ""
  },
  {
   "property": "C51",
   "status": "proved",
   "theorems": [
    "c51_kzg_homomorphic",
    "c51_kzg_combination"
   ],
   "note": ""
  },
  {
   "property": "C52",
   "status": "proved",
   "theorems": [
    "c52_length_assertion_silent",
    "c52_assertion_can_fire"
   ],
   "note": ""
  },
  {
   "property": "C53",
   "status": "proved",
   "theorems": [
    "c53_state_of_history",
    "c53_history_bound",
    "c53_init_absorb_confusion"
   ],
   "note": ""
  },
  {
   "property": "C54",
   "status": "proved",
   "theorems": [
    "c54_cumulative_info",
    "c54_prover_commitments"
   ],
   "note": ""
  },
  {
   "property": "C55",
   "status": "proved",
   "theorems": [
    "c55_completeness"
   ],
   "note": ""
  },
  {
   "property": "C56",
   "status": "proved",
   "theorems": [
    "c56_interactive_soundness"
   ],
   "note": ""
  },
  {
   "property": "C57",
   "status": "proved",
   "theorems": [
    "c57_gate_soundness",
    "c57_copy_soundness",
    "c57_lookup_soundness"
   ],
   "note": ""
  },
  {
   "property": "C58",
   "status": "proved",
   "theorems": [
    "c58_leftovers"
   ],
   "note": ""
  },
  {
   "property": "C59",
   "status": "proved",
   "theorems": [
    "c59_prove_succeeds",
    "c59_any_transcript",
    "c59_few_bad_challenges",
    "c59_completeness",
    "c59_kzg_total"
   ],
   "note": ""
  },
  {
   "property": "C60",
   "status": "proved",
   "theorems": [
    "c60_fresh_randomness",
    "c60_independent_of_the_witness"
   ],
   "note": ""
  },
  {
   "property": "C61",
   "status": "proved",
   "theorems": [
    "c61_openings_hide_the_rows",
    "c61_too_few_blinded_rows",
    "c61_enough_rows_refuted"
   ],
   "note": "c61_enough_rows_refuted is the last sentence of the statement: an accepted proof with more openings of the permutation products than blinded rows (finding F23)."
  },
  {
   "property": "C62",
   "status": "proved",
   "theorems": [
    "c62_violated_copy_is_refused",
    "c62_violated_lookup_is_refused"
   ],
   "note": ""
  },
  {
   "property": "C63",
   "status": "proved",
   "theorems": [
    "c63_q_blind_not_opened",
    "c63_sigma_not_opened"
   ],
   "note": ""
  },
  {
   "property": "C64",
   "status": "proved",
   "theorems": [
    "c64_violated_gate_is_rejected",
    "c64_mock_accepts",
    "c64_mock_rejects"
   ],
   "note": ""
  },
  {
   "property": "C65",
   "status": "proved",
   "theorems": [
    "c65_equivalent_rotations_refused",
    "c65_prove_returns_iff",
    "c65_prove_outcome"
   ],
   "note": ""
  },
  {
   "property": "C66",
   "status": "proved",
   "theorems": [
    "c66_prove_rounds_up",
    "c66_verify_does_not"
   ],
   "note": ""
  },
  {
   "property": "C67",
   "status": "proved",
   "theorems": [
    "c67_gate_queries_opened",
    "c67_lookup_queries_opened",
    "c67_copied_columns_opened"
   ],
   "note": ""
  },
  {
   "property": "C68",
   "status": "proved",
   "theorems": [
    "c68_commitments_are_opaque"
   ],
   "note": ""
  },
  {
   "property": "C69",
   "status": "proved",
   "theorems": [
    "c69_false_openings_need_the_secret",
    "c69_rejected_by_kzg",
    "c69_kzg_gate_soundness",
    "c69_kzg_copy_soundness",
    "c69_kzg_lookup_soundness"
   ],
   "note": ""
  },
  {
   "property": "C70",
   "status": "proved",
   "theorems": [
    "c70_trailing_quotient_evals_ignored",
    "c70_missing_quotient_evals_panic",
    "c70_accepted_proofs_are_malleable"
   ],
   "note": ""
  },
  {
   "property": "C71",
   "status": "proved",
   "theorems": [
    "c71_forged_from_any_witness",
    "c71_accepted_proof_reused"
   ],
   "note": ""
  },
  {
   "property": "C72",
   "status": "proved",
   "theorems": [
    "c72_two_verdicts",
    "c72_combined_gates_hold",
    "c72_combined_gates_fail"
   ],
   "note": ""
  },
  {
   "property": "C73",
   "status": "proved",
   "theorems": [
    "c73_scaled_vanishing_polynomial",
    "c73_usable_rows_vanishing_polynomial"
   ],
   "note": ""
  },
  {
   "property": "C74",
   "status": "proved",
   "theorems": [
    "c74_too_many_usable_rows",
    "c74_row_counts_disagree",
    "c74_no_usable_rows"
   ],
   "note": ""
  },
  {
   "property": "C75",
   "status": "proved",
   "theorems": [
    "c75_q_evals",
    "c75_lone_column_opened_at_x3",
    "c75_one_more_blinded_row_needed",
    "c75_one_more_blinded_row_enough"
   ],
   "note": ""
  },
  {
   "property": "C76",
   "status": "proved",
   "theorems": [
    "c76_changed_evaluation_rejected",
    "c76_changed_quotient_evaluation",
    "c76_kzg_one_value"
   ],
   "note": ""
  },
  {
   "property": "C77",
   "status": "proved",
   "theorems": [
    "c77_one_opening_check",
    "c77_kzg_opening_proofs",
    "c77_kzg_changed_opening"
   ],
   "note": ""
  },
  {
   "property": "C78",
   "status": "proved",
   "theorems": [
    "c78_one_equation",
    "c78_one_evaluation_decides"
   ],
   "note": ""
  },
  {
   "property": "C79",
   "status": "proved",
   "theorems": [
    "c79_quotient_evaluations_accepted",
    "c79_quotient_evaluations_exactly",
    "c79_three_quotient_evaluations"
   ],
   "note": ""
  }
 ]
}