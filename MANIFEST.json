{
 "claims": [
  {
   "property": "C01",
   "status": "proved",
   "theorems": [
    "C01_feas_answer"
   ],
   "note": "Every number type, oracle and space."
  },
  {
   "property": "C02",
   "status": "proved",
   "theorems": [
    "C02_feas_gave_up",
    "C02_feas_panics",
    "C02_feas_calls"
   ],
   "note": "Every number type, oracle and space; the call count is read off a counting oracle."
  },
  {
   "property": "C03",
   "status": "proved",
   "theorems": [
    "C03_optim_last_improvement"
   ],
   "note": "Every number type, oracle and space."
  },
  {
   "property": "C04",
   "status": "proved",
   "theorems": [
    "C04_gamma_paired"
   ],
   "note": "Every number type, oracle, space and transitive order."
  },
  {
   "property": "C05",
   "status": "proved",
   "theorems": [
    "C05_optim_q_retry"
   ],
   "note": "Every number type, oracle and space."
  },
  {
   "property": "C06",
   "status": "proved",
   "theorems": [
    "C06_probe",
    "C06_probe_sequence"
   ],
   "note": "Every number type, oracle; the sequence theorem needs the set_xc law, which Ell and EllStable satisfy by computation."
  },
  {
   "property": "C07",
   "status": "proved",
   "theorems": [
    "C07_bsearch_brackets"
   ],
   "note": "Exact reals, every threshold oracle."
  },
  {
   "property": "C08",
   "status": "proved",
   "theorems": [
    "C08_bsearch_interval_untouched",
    "C08_bsearch_panics"
   ],
   "note": "Every number type."
  },
  {
   "property": "C09",
   "status": "proved",
   "theorems": [
    "C09_bsearch_float_inside",
    "C09_bsearch_overflow_refuted"
   ],
   "note": "binary64 (Flocq), every oracle and libm; overflow failure with witness."
  },
  {
   "property": "C10",
   "status": "proved",
   "theorems": [
    "C10_deep_cut"
   ],
   "note": "real arithmetic; beta up to and including tau"
  },
  {
   "property": "C100",
   "status": "proved",
   "theorems": [
    "C100_dot",
    "C100_dot_finite",
    "C100_matvec",
    "C100_sum",
    "C100_sum_finite",
    "C100_outer",
    "C100_rank_one"
   ],
   "note": "binary64"
  },
  {
   "property": "C101",
   "status": "proved",
   "theorems": [
    "C101_central",
    "C101_bias",
    "C101_q"
   ],
   "note": "binary64, single cuts, no_defer_trick = false; the conditions on the state are the record tame (StepAccSpec.v); the constants of the slack are not sharp"
  },
  {
   "property": "C102",
   "status": "proved",
   "theorems": [
    "C102_central",
    "C102_bias",
    "C102_q"
   ],
   "note": "binary64, conditions as in C101"
  },
  {
   "property": "C103",
   "status": "proved",
   "theorems": [
    "C103_feas",
    "C103_optim",
    "C103_q"
   ],
   "note": "any Num, Ell as the search space"
  },
  {
   "property": "C104",
   "status": "proved",
   "theorems": [
    "C104_keeps",
    "C104_shrinks",
    "C104_feas",
    "C104_optim"
   ],
   "note": "binary64, single cuts; that every visited state is tame is a hypothesis on the run (it can be computed, see the cases)"
  },
  {
   "property": "C105",
   "status": "proved",
   "theorems": [
    "C105_reported",
    "C105_answer",
    "C105_zero_refuted",
    "C105_near_best",
    "C105_certificate",
    "C105_too_high",
    "C105_default"
   ],
   "note": "run theorems over the reals, with the alternative that a centre has x = 0 stated; the failure at x = 0 in binary64"
  },
  {
   "property": "C106",
   "status": "proved",
   "theorems": [
    "C106_answers",
    "C106_accepts",
    "C106_cut",
    "C106_rejects",
    "C106_certificate"
   ],
   "note": "the tolerance grows with the cube of the size; finiteness of the pivots is a hypothesis, because overflow does happen (C99)"
  },
  {
   "property": "C107",
   "status": "proved",
   "theorems": [
    "C107_run",
    "C107_run_old"
   ],
   "note": "good conditioning along the run is a hypothesis, as in C104"
  },
  {
   "property": "C108",
   "status": "proved",
   "theorems": [
    "C108_answers",
    "C108_accepts",
    "C108_cut",
    "C108_rejects",
    "C108_certificate"
   ],
   "note": "finiteness of the pivots is a hypothesis, as in C106"
  },
  {
   "property": "C109",
   "status": "proved",
   "theorems": [
    "C109_calc",
    "C109_bias",
    "C109_q",
    "C109_central",
    "C109_far_bias",
    "C109_far_q",
    "C109_far_central"
   ],
   "note": "depths between 0 and half the half width for the first cut; the slack grows with the squared ratio of half width to thickness"
  },
  {
   "property": "C11",
   "status": "proved",
   "theorems": [
    "C11_nosoln_sound",
    "C11_shallow_rejected",
    "C11_shallow_drops_refuted"
   ],
   "note": "the two failures are a universal statement (beta < -tau) and a witness"
  },
  {
   "property": "C110",
   "status": "proved",
   "theorems": [
    "C110_keeps",
    "C110_shrinks",
    "C110_feas",
    "C110_optim"
   ],
   "note": "the well-conditioning and the thickness of the slabs are assumed along the run, as in C104; the oracle's answers are only assumed valid at the centres the run visits"
  },
  {
   "property": "C111",
   "status": "proved",
   "theorems": [
    "C111_feas",
    "C111_assess",
    "C111_run"
   ],
   "note": "the specification is read off the coefficients the oracle holds; how far those are from cosines depends on the platform's cos and is not part of the claim; the conditions along the run are those of C110"
  },
  {
   "property": "C112",
   "status": "proved",
   "theorems": [
    "C112_new",
    "C112_design"
   ],
   "note": "the accuracy of the platform's cosine is a hypothesis; the example discharges it for a cosine computed with integers (FcosAcc.v)"
  },
  {
   "property": "C113",
   "status": "proved",
   "theorems": [
    "C113_answer"
   ],
   "note": "C65_binary64_refuted shows that the plain claim (true residual below the tolerance) is false in binary64; this is the bound that holds. The growth bounds X, Y, T are hypotheses on the run, discharged by computation in C113_case"
  },
  {
   "property": "C114",
   "status": "proved",
   "theorems": [
    "C114_new",
    "C114_assess",
    "C114_run"
   ],
   "note": "exact-arithmetic counterparts: C53, C54, C83. The accuracy of the platform's exp and ln is a hypothesis, shown for a concrete implementation (fexp, fln in Num.v) in FexpAcc.v; the conditioning of the ellipsoids along the run is a hypothesis of C114_run, discharged by computation in C114_case"
  },
  {
   "property": "C115",
   "status": "proved",
   "theorems": [
    "C115_new",
    "C115_assess",
    "C115_run"
   ],
   "note": "exact-arithmetic counterparts: C55, C84. The accuracy of the platform's exp and ln is a hypothesis, as in C114; the conditioning of the ellipsoids along the run is a hypothesis of C115_run, discharged by computation in C115_case"
  },
  {
   "property": "C116",
   "status": "proved",
   "theorems": [
    "C116_run",
    "C116_checked",
    "C116_value",
    "C116_value3",
    "C116_small_refuted"
   ],
   "note": "exact-arithmetic counterparts: C62, C73, C63. For power_iteration3 (C116_value3) the claim is about the returned value; how close its vector is to an eigenvector is not claimed in double arithmetic"
  },
  {
   "property": "C117",
   "status": "proved",
   "theorems": [
    "C117_assess",
    "C117_run",
    "C117_too_high"
   ],
   "note": "exact-arithmetic counterpart: C97. The run theorem assumes what a run in double arithmetic can check step by step (tame_run, centres in the square); the example meets it"
  },
  {
   "property": "C118",
   "status": "proved",
   "theorems": [
    "C118_bracket",
    "C118_stuck",
    "C118_flag_refuted"
   ],
   "note": "exact-arithmetic counterpart: C07; the overflow case is C09. C118_flag_refuted is the last sentence"
  },
  {
   "property": "C119",
   "status": "proved",
   "theorems": [
    "C119_example1",
    "C119_example1_rr",
    "C119_example4",
    "C119_example3",
    "C119_values1",
    "C119_values1_rr",
    "C119_values4",
    "C119_run1",
    "C119_run1_rr",
    "C119_run4",
    "C119_run3"
   ],
   "note": "that centres stay in range and ellipsoids stay well conditioned are hypotheses on the run, met by the runs shown beside the theorems"
  },
  {
   "property": "C12",
   "status": "proved",
   "theorems": [
    "C12_q_sound"
   ],
   "note": ""
  },
  {
   "property": "C120",
   "status": "proved",
   "theorems": [
    "C120_root"
   ],
   "note": "exact-arithmetic counterpart: C40; that a pivot can overflow is C99"
  },
  {
   "property": "C121",
   "status": "proved",
   "theorems": [
    "C121_linspace",
    "C121_end_refuted",
    "C121_arange",
    "C121_arange_empty",
    "C121_arange_refuted"
   ],
   "note": "exact-arithmetic counterpart: C37; the refuted theorems show that the end point is not met exactly and that the bound on arange's ends is needed"
  },
  {
   "property": "C122",
   "status": "proved",
   "theorems": [
    "C122_example1_rr",
    "C122_example4",
    "C122_quasicvx",
    "C122_example3",
    "C122_profit",
    "C122_robust",
    "C122_example1_rr_fair",
    "C122_example4_fair",
    "C122_quasicvx_fair",
    "C122_profit_fair",
    "C122_robust_fair",
    "C122_discrete",
    "C122_quasicvx2",
    "C122_quasicvx2_fair"
   ],
   "note": "added after a mutant that forgot the constraint index survived; the answers themselves are C52, C60, C61"
  },
  {
   "property": "C123",
   "status": "proved",
   "theorems": [
    "C123_call",
    "C123_pass_fair",
    "C123_stop_fair",
    "C123_trans_fair"
   ],
   "note": "counters in range are kept by every call (C48); what the answers mean is C49"
  },
  {
   "property": "C124",
   "status": "proved",
   "theorems": [
    "C124_call",
    "C124_run"
   ],
   "note": "exact arithmetic: C57, where the beta is shown to make a wrong cut"
  },
  {
   "property": "C125",
   "status": "proved",
   "theorems": [
    "C125_call",
    "C125_run",
    "C125_sides"
   ],
   "note": "exact arithmetic: C58; that the cut is not a valid one: C59"
  },
  {
   "property": "C126",
   "status": "proved",
   "theorems": [
    "C126_call"
   ],
   "note": "binary64; the moved offset has the wrong sign, as C56 shows, so no statement about whole runs"
  },
  {
   "property": "C127",
   "status": "proved",
   "theorems": [
    "C127_total",
    "C127_panics",
    "C127_new"
   ],
   "note": "any Num; extends C39_panics and C40_panics, which are about exact reals"
  },
  {
   "property": "C128",
   "status": "proved",
   "theorems": [
    "C128_assess",
    "C128_run",
    "C128_too_high"
   ],
   "note": "for centres whose x is not between 0 and r^2: at x = 0 the code divides by zero (C105_zero_refuted)"
  },
  {
   "property": "C13",
   "status": "proved",
   "theorems": [
    "C13_central_cut"
   ],
   "note": ""
  },
  {
   "property": "C14",
   "status": "proved",
   "theorems": [
    "C14_parallel_bias",
    "C14_C15_parallel_q",
    "C14_unchecked_refuted"
   ],
   "note": ""
  },
  {
   "property": "C15",
   "status": "proved",
   "theorems": [
    "C14_C15_parallel_q",
    "C15_far_side"
   ],
   "note": "C15_far_side is the failure, for every ellipsoid"
  },
  {
   "property": "C16",
   "status": "proved",
   "theorems": [
    "C16_parallel_central"
   ],
   "note": ""
  },
  {
   "property": "C17",
   "status": "proved",
   "theorems": [
    "C17_factor",
    "C17_single",
    "C17_parallel"
   ],
   "note": "exact arithmetic; determinant by Laplace expansion, matrix determinant lemma proved in DetLemmas.v"
  },
  {
   "property": "C18",
   "status": "proved",
   "theorems": [
    "C18_old_equals_new",
    "C18_parallel_central",
    "C18_touching",
    "C18_central"
   ],
   "note": "Over the reals, n >= 2. The old formula needs beta0 < beta1 and eta >= 0 (documented range)."
  },
  {
   "property": "C19",
   "status": "proved",
   "theorems": [
    "C19_single",
    "C19_parallel",
    "C19_zero_width",
    "C19_far_point"
   ],
   "note": "Exact arithmetic with a propagating error value; also the exact exception beta = -tau of the bias cut."
  },
  {
   "property": "C20",
   "status": "proved",
   "theorems": [
    "C20_dimension_one"
   ],
   "note": "binary64 (Flocq), every libm."
  },
  {
   "property": "C21",
   "status": "proved",
   "theorems": [
    "C21_rejected_unchanged"
   ],
   "note": "any number type"
  },
  {
   "property": "C22",
   "status": "proved",
   "theorems": [
    "C22_bitwise_symmetric",
    "C22_C26_sequences"
   ],
   "note": "any number type"
  },
  {
   "property": "C23",
   "status": "proved",
   "theorems": [
    "C23_single_stays_definite",
    "C23_parallel_stays_definite"
   ],
   "note": ""
  },
  {
   "property": "C24",
   "status": "proved",
   "theorems": [
    "C24_tsq_set",
    "C24_width_is_maximum"
   ],
   "note": ""
  },
  {
   "property": "C25",
   "status": "proved",
   "theorems": [
    "C25_no_defer"
   ],
   "note": ""
  },
  {
   "property": "C26",
   "status": "proved",
   "theorems": [
    "C22_C26_sequences",
    "C22_bitwise_symmetric",
    "C26_new_with_scalar",
    "C26_new",
    "C26_new_with_matrix"
   ],
   "note": ""
  },
  {
   "property": "C27",
   "status": "proved",
   "theorems": [
    "C27_single",
    "C27_parallel"
   ],
   "note": "exact arithmetic; the set K and the oracle are arbitrary"
  },
  {
   "property": "C28",
   "status": "proved",
   "theorems": [
    "C28_single",
    "C28_parallel"
   ],
   "note": "exact arithmetic"
  },
  {
   "property": "C29",
   "status": "proved",
   "theorems": [
    "C29_single",
    "C29_parallel",
    "C29_single_margin",
    "C29_parallel_margin"
   ],
   "note": "exact arithmetic; `beats` is an arbitrary relation satisfying optim_cuts"
  },
  {
   "property": "C30",
   "status": "proved",
   "theorems": [
    "C30_width",
    "C30_size",
    "C30_shape_refuted",
    "C30_never_rotates"
   ],
   "note": "width and size proved for all states; the shape claim is false and refuted by a witness"
  },
  {
   "property": "C31",
   "status": "proved",
   "theorems": [
    "C31_first_cut_scalar",
    "C31_first_cut_new",
    "C31_axis_cuts",
    "C31_keeps_points_refuted",
    "C31_centre_refuted"
   ],
   "note": "agreement where it holds, witnesses where it fails"
  },
  {
   "property": "C32",
   "status": "proved",
   "theorems": [
    "C32_rejected_unchanged"
   ],
   "note": "any arithmetic, bit for bit"
  },
  {
   "property": "C33",
   "status": "proved",
   "theorems": [
    "C33_diagonal",
    "C33_matrix_refuted"
   ],
   "note": ""
  },
  {
   "property": "C34",
   "status": "proved",
   "theorems": [
    "C34_binary",
    "C34_dot",
    "C34_dot_mv",
    "C34_outer",
    "C34_rank_one_update",
    "C34_copy_from",
    "C34_row",
    "C34_from_shape_vec",
    "C34_access",
    "C34_access_alias",
    "C34_elementwise_refuted",
    "C34_write",
    "C34_write2",
    "C34_access_more"
   ],
   "note": "panic conditions as iff, for every number type; C34_elementwise_refuted records that element-wise functions of zeros(r,0) do not keep the size"
  },
  {
   "property": "C35",
   "status": "proved",
   "theorems": [
    "C35_dot",
    "C35_dot_mv",
    "C35_outer",
    "C35_rank_one_update",
    "C35_eye",
    "C35_from_diag",
    "C35_sum",
    "C35_divide",
    "C35_row",
    "C35_binary",
    "C35_elementwise",
    "C35_copy_from",
    "C35_from_shape_vec",
    "C35_rank_one_lower"
   ],
   "note": "over the reals where a mathematical result is claimed"
  },
  {
   "property": "C36",
   "status": "proved",
   "theorems": [
    "C36_divide_refuted",
    "C35_divide"
   ],
   "note": "f64 witness 49/49; over the reals it is division"
  },
  {
   "property": "C37",
   "status": "proved",
   "theorems": [
    "C37_linspace",
    "C37_arange"
   ],
   "note": "over the reals"
  },
  {
   "property": "C38",
   "status": "proved",
   "theorems": [
    "C38_decides_pd",
    "C38_decides_pd_array"
   ],
   "note": "Over the reals, every size, every manager history; A symmetric (the code reads only the lower triangle)."
  },
  {
   "property": "C39",
   "status": "proved",
   "theorems": [
    "C39_witness",
    "C39_panics"
   ],
   "note": "Over the reals, every size and history."
  },
  {
   "property": "C40",
   "status": "proved",
   "theorems": [
    "C40_sqrt",
    "C40_panics"
   ],
   "note": "Over the reals, every size and history."
  },
  {
   "property": "C41",
   "status": "proved",
   "theorems": [
    "C41_accepts_psd",
    "C41_accepts_only_psd_refuted"
   ],
   "note": "One direction proved with a strict witness on rejection; the converse is refuted."
  },
  {
   "property": "C42",
   "status": "proved",
   "theorems": [
    "C42_factor_history",
    "C42_semi_history",
    "C42_outside_kept",
    "C42_whole_vector_refuted"
   ],
   "note": "Any number type, hence bit for bit in f64; entries outside the reported block are shown to be stale."
  },
  {
   "property": "C43",
   "status": "proved",
   "theorems": [
    "C43_nan_not_caught",
    "C43_nan_accepted",
    "C43_nan_point_feasible"
   ],
   "note": "f64 (Flocq binary64)."
  },
  {
   "property": "C44",
   "status": "proved",
   "theorems": [
    "C44_C45_lmi",
    "C44_new"
   ],
   "note": "Over the reals; lmi_ok holds after the constructor and is preserved by every call."
  },
  {
   "property": "C45",
   "status": "proved",
   "theorems": [
    "C44_C45_lmi"
   ],
   "note": "Over the reals."
  },
  {
   "property": "C46",
   "status": "proved",
   "theorems": [
    "C46_old_same"
   ],
   "note": "Any number type: the two results, including the new manager state, are equal, hence so are all call histories."
  },
  {
   "property": "C47",
   "status": "proved",
   "theorems": [
    "C47_lmi0",
    "C47_new"
   ],
   "note": "Over the reals."
  },
  {
   "property": "C48",
   "status": "proved",
   "theorems": [
    "C48_new",
    "C48_calls",
    "C48_panics",
    "C48_wrong_shape",
    "C48_empty_stop_panics",
    "C48_nan_refuted"
   ],
   "note": "extended reals for the call sequences (the search for the maximum starts at -infinity); exact panic condition for every number type; in binary64 a NaN filter makes assess_optim panic"
  },
  {
   "property": "C49",
   "status": "proved",
   "theorems": [
    "C49_exhaustive_any",
    "C49_C50_feasibility"
   ],
   "note": "exhaustive for every number type; None iff the specification is met, for every reachable counter state"
  },
  {
   "property": "C50",
   "status": "proved",
   "theorems": [
    "C49_C50_feasibility"
   ],
   "note": "every cut keeps all filters meeting the specification, beta0 > 0"
  },
  {
   "property": "C51",
   "status": "proved",
   "theorems": [
    "C51_optimisation",
    "C51_run",
    "C51_run_any"
   ],
   "note": "new level is the largest stop-band response, not above the old one; the cut keeps all filters with at most that level; also for whole runs"
  },
  {
   "property": "C52",
   "status": "proved",
   "theorems": [
    "C52_new_ok",
    "C52_exhaustive"
   ],
   "note": "any number type; counter range is an invariant of every call"
  },
  {
   "property": "C53",
   "status": "proved",
   "theorems": [
    "C53_valid_cuts",
    "C53_new_about",
    "C53_negative_gamma_refuted"
   ],
   "note": "real arithmetic; false for negative gamma, with a witness"
  },
  {
   "property": "C54",
   "status": "proved",
   "theorems": [
    "C54_gamma_is_profit",
    "C54_any_level",
    "C54_run",
    "C54_run_any"
   ],
   "note": "single queries (every level but NaN, infinite ones included) and whole optimisations"
  },
  {
   "property": "C55",
   "status": "proved",
   "theorems": [
    "C55_robust",
    "C55_new"
   ],
   "note": "real arithmetic"
  },
  {
   "property": "C56",
   "status": "proved",
   "theorems": [
    "C56_integer_points",
    "C56_new_ok",
    "C56_shift_refuted",
    "C56_new_about"
   ],
   "note": "the shift of the cut has the wrong sign: witness"
  },
  {
   "property": "C57",
   "status": "proved",
   "theorems": [
    "C57_minimum_margin",
    "C57_always_improves",
    "C57_beta_refuted",
    "C57_monotone_refuted",
    "C57_space_nan"
   ],
   "note": "extended reals for all finite data; witnesses in binary64"
  },
  {
   "property": "C58",
   "status": "proved",
   "theorems": [
    "C58_cut_weight",
    "C58_run",
    "C58_new"
   ],
   "note": "real arithmetic"
  },
  {
   "property": "C59",
   "status": "proved",
   "theorems": [
    "C59_valid_cut_refuted"
   ],
   "note": "the property is that the cuts are not valid: witness"
  },
  {
   "property": "C60",
   "status": "proved",
   "theorems": [
    "C60_quasicvx",
    "C60_quasicvx_tests",
    "C60_negative_gamma_refuted"
   ],
   "note": "Exact reals for the cuts, every number type for the decisions; the negative-gamma case is refuted by a witness."
  },
  {
   "property": "C61",
   "status": "proved",
   "theorems": [
    "C61_example1",
    "C61_example1_rr",
    "C61_example4",
    "C61_example3",
    "C61_example1_tests",
    "C61_example4_tests",
    "C61_example3_tests",
    "C61_rr_same",
    "C61_example3_update"
   ],
   "note": "Exact reals for the cuts, every number type for the decisions."
  },
  {
   "property": "C62",
   "status": "proved",
   "theorems": [
    "C62_returns",
    "C62_outcome",
    "C62_outcome2",
    "C62_outcome4"
   ],
   "note": "Extended reals (finite inputs); binary64 replays of the repository's tests reproduce its counts."
  },
  {
   "property": "C63",
   "status": "proved",
   "theorems": [
    "C63_outcome",
    "C63_normalised_refuted"
   ],
   "note": "Extended reals."
  },
  {
   "property": "C64",
   "status": "proved",
   "theorems": [
    "C64_eigenvector",
    "C64_dominant_refuted"
   ],
   "note": "Extended reals; 'dominant' is refuted by diag(2,1) started at (0,1)."
  },
  {
   "property": "C65",
   "status": "proved",
   "theorems": [
    "C65_solution",
    "C65_limit",
    "C65_outcome",
    "C65_binary64_refuted"
   ],
   "note": "Extended reals with finite inputs; binary64 refuted by 3x = 1."
  },
  {
   "property": "C66",
   "status": "proved",
   "theorems": [
    "C66_terminates",
    "C66_semidefinite",
    "C66_symmetric_refuted"
   ],
   "note": "Extended reals."
  },
  {
   "property": "C67",
   "status": "proved",
   "theorems": [
    "C67_exact_start"
   ],
   "note": "Extended reals."
  },
  {
   "property": "C68",
   "status": "proved",
   "theorems": [
    "C68_feasible_missed_refuted"
   ],
   "note": "f64 execution evaluated in the kernel"
  },
  {
   "property": "C69",
   "status": "proved",
   "theorems": [
    "C69_quiet_cut_refuted"
   ],
   "note": "f64 execution evaluated in the kernel"
  },
  {
   "property": "C70",
   "status": "proved",
   "theorems": [
    "C70_example1",
    "C70_example1_rr",
    "C70_example4"
   ],
   "note": "Every number type and search space."
  },
  {
   "property": "C71",
   "status": "proved",
   "theorems": [
    "C71_create",
    "C71_no_filter",
    "C71_run",
    "C71_test_refuted"
   ],
   "note": "log10 and powf are taken as exact functions"
  },
  {
   "property": "C72",
   "status": "proved",
   "theorems": [
    "C72_same"
   ],
   "note": "Extended reals."
  },
  {
   "property": "C73",
   "status": "proved",
   "theorems": [
    "C73_residual",
    "C73_residual4",
    "C73_value_test_refuted"
   ],
   "note": "Extended reals; variants 2 and 3 refuted by diag(1,-1) started at (1,1)."
  },
  {
   "property": "C74",
   "status": "proved",
   "theorems": [
    "C74_grows"
   ],
   "note": "Extended reals."
  },
  {
   "property": "C75",
   "status": "proved",
   "theorems": [
    "C75_terminates",
    "C75_converges"
   ],
   "note": "Extended reals."
  },
  {
   "property": "C76",
   "status": "proved",
   "theorems": [
    "C76_panics"
   ],
   "note": "Every instance of Num."
  },
  {
   "property": "C77",
   "status": "proved",
   "theorems": [
    "C77_energy"
   ],
   "note": "Extended reals."
  },
  {
   "property": "C78",
   "status": "proved",
   "theorems": [
    "C78_optimal"
   ],
   "note": "Extended reals."
  },
  {
   "property": "C79",
   "status": "proved",
   "theorems": [
    "C79_panics"
   ],
   "note": "Every instance of Num."
  },
  {
   "property": "C80",
   "status": "proved",
   "theorems": [
    "C80_single",
    "C80_parallel"
   ],
   "note": "exact arithmetic"
  },
  {
   "property": "C81",
   "status": "proved",
   "theorems": [
    "C81_example1",
    "C81_example1_rr",
    "C81_example4",
    "C81_example3"
   ],
   "note": "exact arithmetic"
  },
  {
   "property": "C82",
   "status": "proved",
   "theorems": [
    "C82_answer",
    "C82_answer_old",
    "C82_solves",
    "C82_solves_old"
   ],
   "note": "Exact arithmetic."
  },
  {
   "property": "C83",
   "status": "proved",
   "theorems": [
    "C83_near_best",
    "C83_certificate",
    "C83_test_problem"
   ],
   "note": "Exact arithmetic; elasticities 1/10 and 4/10 as rationals (the f64 literals are not exactly these)."
  },
  {
   "property": "C84",
   "status": "proved",
   "theorems": [
    "C84_near_best",
    "C84_certificate",
    "C84_test_problem"
   ],
   "note": "Exact arithmetic; decimal data as rationals."
  },
  {
   "property": "C85",
   "status": "proved",
   "theorems": [
    "C85_single",
    "C85_parallel",
    "C85_stop_refuted"
   ],
   "note": "exact arithmetic; parallel cuts beyond the ellipsoid may leave an invalid ellipsoid, but then no point was left"
  },
  {
   "property": "C86",
   "status": "proved",
   "theorems": [
    "C86_bsearch",
    "C86_adaptor",
    "C86_example3",
    "C86_test_problem"
   ],
   "note": "exact arithmetic; C86_adaptor is stated for single cuts"
  },
  {
   "property": "C87",
   "status": "proved",
   "theorems": [
    "C87_answer",
    "C87_reports",
    "C87_run",
    "C87_stuck",
    "C87_example_refuted"
   ],
   "note": "Optimality of the example run is refuted: stuck at the first admissible centre that does not improve; main_run in binary64 is the witness."
  },
  {
   "property": "C88",
   "status": "proved",
   "theorems": [
    "C88_oracles",
    "C88_converges",
    "C88_test",
    "C88_cut_refuted"
   ],
   "note": "exact arithmetic; test's infinite start level covered by every level >= 2"
  },
  {
   "property": "C89",
   "status": "proved",
   "theorems": [
    "C89_feas_single",
    "C89_feas_parallel",
    "C89_optim_single",
    "C89_optim_parallel",
    "C89_q_single",
    "C89_q_parallel",
    "C89_bsearch",
    "C89_new",
    "C89_oracles",
    "C89_example3"
   ],
   "note": "simulation between the run over the extended reals and the run over the reals; zero-width last step excepted (zero_width_nan, used in Prop_Calc.v, shows that one leaves NaN)"
  },
  {
   "property": "C90",
   "status": "proved",
   "theorems": [
    "C90_follows",
    "C90_example1",
    "C90_example1_rr",
    "C90_example4",
    "C90_squares",
    "C90_test"
   ],
   "note": "threshold argument: the finitely many questions asked before the first success give one threshold below which all levels are answered alike"
  },
  {
   "property": "C91",
   "status": "proved",
   "theorems": [
    "C91_single",
    "C91_parallel",
    "C91_feas_single",
    "C91_feas_parallel",
    "C91_optim_single",
    "C91_optim_parallel",
    "C91_optim_q",
    "C91_start",
    "C91_oracles",
    "C91_meaning",
    "C91_tiny_refuted",
    "C91_dimension_one_refuted"
   ],
   "note": "rounding-error analysis of the cut formulas (monotonicity of rounding, square-root-of-square bound); quantised updates with parallel cuts are not covered"
  },
  {
   "property": "C92",
   "status": "proved",
   "theorems": [
    "C92_reflexive",
    "C92_symmetric",
    "C92_transitive",
    "C92_zeros",
    "C92_exact",
    "C92_shape",
    "C92_full",
    "C92_from_fn",
    "C92_scalar",
    "C92_subtract_negate",
    "C92_add_commutes",
    "C92_negate_twice",
    "C92_from_covariance"
   ],
   "note": ""
  },
  {
   "property": "C93",
   "status": "proved",
   "theorems": [
    "C93_optimum",
    "C93_certificate",
    "C93_feasible",
    "C93_infeasible",
    "C93_design"
   ],
   "note": "over the reals extended with infinities and NaN"
  },
  {
   "property": "C94",
   "status": "proved",
   "theorems": [
    "C94_feas",
    "C94_optim",
    "C94_optim_q",
    "C94_bsearch",
    "C94_oracles"
   ],
   "note": ""
  },
  {
   "property": "C95",
   "status": "proved",
   "theorems": [
    "C95_bias",
    "C95_quantised",
    "C95_central",
    "C95_default_on",
    "C95_single"
   ],
   "note": "any number type"
  },
  {
   "property": "C96",
   "status": "proved",
   "theorems": [
    "C96_single",
    "C96_parallel",
    "C96_pair",
    "C96_below_refuted"
   ],
   "note": "over the reals; the refuted case is a pair whose first cut misses the ellipsoid"
  },
  {
   "property": "C97",
   "status": "proved",
   "theorems": [
    "C97_reported",
    "C97_near_best",
    "C97_certificate",
    "C97_too_high",
    "C97_test_problem",
    "C97_default"
   ],
   "note": "over the reals, C97_reported over any number type"
  },
  {
   "property": "C98",
   "status": "proved",
   "theorems": [
    "C98_central",
    "C98_bias",
    "C98_bias_q",
    "C98_parallel_central",
    "C98_rejects",
    "C98_rejects_q",
    "C98_accepts"
   ],
   "note": "binary64; the parallel bias cut is not covered: its square root can lose half the digits when both offsets are near tau"
  },
  {
   "property": "C99",
   "status": "proved",
   "theorems": [
    "C99_accepts",
    "C99_rejects",
    "C99_overflow_refuted"
   ],
   "note": "binary64; the constants 4 n^2 and 16 n^2 are not sharp; the finite-pivot condition is about the stored diagonal after the call"
  }
 ]
}
