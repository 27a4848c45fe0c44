{
 "claims": [
  {
   "property": "C01",
   "status": "proved",
   "theorems": [
    "C01_haroldpoly"
   ],
   "note": "haroldpoly builds the monic polynomial with the given roots"
  },
  {
   "property": "C02",
   "status": "proved",
   "theorems": [
    "C02_polyadd"
   ],
   "note": "haroldpolyadd adds polynomials"
  },
  {
   "property": "C03",
   "status": "partial",
   "theorems": [
    "C03_polyadd_trimmed_refuted",
    "C03_polyadd_trimmed_partial"
   ],
   "note": "False of the code: cancelling leading coefficients are not trimmed. Refuted by a witness; the exact condition under which the output is trimmed is proved."
  },
  {
   "property": "C04",
   "status": "partial",
   "theorems": [
    "C04_polymul_partial",
    "C04_polymul_notrim_partial",
    "C04_polymul_zero_result",
    "C04_polymul_zero_first_refuted"
   ],
   "note": "Product proved whenever the first factor is nonzero (or trim_zeros=False); a vanishing first factor followed by a non-vanishing one raises ValueError, proved for every such call."
  },
  {
   "property": "C05",
   "status": "proved",
   "theorems": [
    "C05_polydiv"
   ],
   "note": "haroldpolydiv is Euclidean division"
  },
  {
   "property": "C06",
   "status": "proved",
   "theorems": [
    "C06_companion",
    "C06_companion_const",
    "C06_companion_zero"
   ],
   "note": "haroldcompanion has the polynomial as characteristic polynomial"
  },
  {
   "property": "C07",
   "status": "partial",
   "theorems": [
    "C07_gcd_partial",
    "C07_gcd_constants_partial",
    "C07_gcd_single_partial",
    "C07_gcd_refuted"
   ],
   "note": "A greatest common divisor is proved for every list with equal positive degrees or two different positive degrees, for all-constant lists and for one argument. False when constants are the only polynomials below the largest degree (the docstring example 2 and 2s+4): proved for every such list."
  },
  {
   "property": "C08",
   "status": "partial",
   "theorems": [
    "C08_lcm_partial",
    "C08_lcm_leading_zero_refuted",
    "C08_lcm_threshold_refuted"
   ],
   "note": "Monic least common multiple and multipliers proved for every list of polynomials without leading zeros, with cleanup_threshold=0 and abstract balancing/SVD contracts (met for every matrix). Lists with a leading zero raise ValueError (proved), and every positive threshold, including the default 1e-9, is proved to break some list."
  },
  {
   "property": "C09",
   "status": "proved",
   "theorems": [
    "C09_state_add",
    "C09_state_add_siso"
   ],
   "note": "State addition adds transfer functions"
  },
  {
   "property": "C10",
   "status": "partial",
   "theorems": [
    "C10_add_keeps_dt_refuted",
    "C10_add_keeps_dt_partial",
    "C10_add_drops_dt_dynamic"
   ],
   "note": "False of the code as stated: State+State of two dynamic models drops the sampling period (_classes.py:1982). Refuted by a witness, proved for gains/arrays/scalars, and proved to fail for every dynamic pair."
  },
  {
   "property": "C11",
   "status": "partial",
   "theorems": [
    "C11_add_terminates_refuted",
    "C11_add_terminates_partial"
   ],
   "note": "False of the code: a SISO dynamic model plus a 1x1 array (or SISO gain) recurses for ever (_classes.py:2082-2087), proved for every such pair; success with recursion depth 3 proved for all other compatible pairs."
  },
  {
   "property": "C12",
   "status": "proved",
   "theorems": [
    "C12_state_matmul",
    "C12_state_matmul_ok",
    "C12_state_matmul_states",
    "C12_state_mul_siso",
    "C12_state_mul_ok"
   ],
   "note": "State multiplication is composition"
  },
  {
   "property": "C13",
   "status": "proved",
   "theorems": [
    "C13_siso_times_matrix"
   ],
   "note": "SISO State times a constant matrix"
  },
  {
   "property": "C14",
   "status": "partial",
   "theorems": [
    "C14_scalar_left",
    "C14_scalar_right_partial",
    "C14_scalar_right_refuted",
    "C14_matrix_right",
    "C14_matrix_left",
    "C14_add_scalar",
    "C14_add_array"
   ],
   "note": "c*G, G*M, M*G, G+c, G+A proved for all models; G*c proved for dynamic models only because a static gain times a scalar raises TypeError (_classes.py:2303), which is proved for every gain."
  },
  {
   "property": "C15",
   "status": "proved",
   "theorems": [
    "C15_state_neg",
    "C15_state_sub",
    "C15_sub_self"
   ],
   "note": "State negation and subtraction"
  },
  {
   "property": "C16",
   "status": "proved",
   "theorems": [
    "C16_inverse",
    "C16_inverse_iff",
    "C16_inverse_poles"
   ],
   "note": "State inversion"
  },
  {
   "property": "C17",
   "status": "proved",
   "theorems": [
    "C17_getitem"
   ],
   "note": "State indexing selects a subsystem"
  },
  {
   "property": "C18",
   "status": "proved",
   "theorems": [
    "C18_dt_mismatch"
   ],
   "note": "Arithmetic never mixes sampling periods"
  },
  {
   "property": "C19",
   "status": "proved",
   "theorems": [
    "C19_validate_iff",
    "C19_validate_wf",
    "C19_validate_stored"
   ],
   "note": "State argument validation accepts exactly consistent matrices"
  },
  {
   "property": "C20",
   "status": "partial",
   "theorems": [
    "C20_rejected",
    "C20_history_partial",
    "C20_empty_d_refuted"
   ],
   "note": "Rejected assignments leave the object unchanged (all histories); all histories starting from an accepted model and not assigning an empty d keep the matrices consistent. False with an empty d: assigning None to the d of a static gain is accepted and gives a 0x0 model (witness)."
  },
  {
   "property": "C21",
   "status": "partial",
   "theorems": [
    "C21_flag_partial",
    "C21_refresh_partial",
    "C21_transfer_refresh_partial",
    "C21_stale_flag_refuted",
    "C21_transfer_stale_flag_refuted",
    "C21_witness_refuted"
   ],
   "note": "False of the code: assigning SamplingPeriod does not recompute the stability flag (State and Transfer; witnesses and the exact stale value proved). Proved for every history whose last assignment recomputes."
  },
  {
   "property": "C22",
   "status": "partial",
   "theorems": [
    "C22_gain_d_refuted",
    "C22_dynamic_d"
   ],
   "note": "False of the code: the d of a static gain model can never be reassigned to a nonempty matrix (proved for all); proved for dynamic models."
  },
  {
   "property": "C23",
   "status": "partial",
   "theorems": [
    "C23_accepted_causal_partial",
    "C23_accepted_wf_partial",
    "C23_flat_lists_partial",
    "C23_mimo_lists_partial",
    "C23_noncausal_accepted_refuted",
    "C23_causal_rejected_refuted"
   ],
   "note": "Acceptance implies causality for all argument forms unless a denominator is stored with leading zeros; acceptance iff causality proved for flat lists and for lists of lists. False for arrays with leading zeros in both directions (_classes.py:1569): witnesses."
  },
  {
   "property": "C24",
   "status": "partial",
   "theorems": [
    "C24_history_partial",
    "C24_shape_history_partial",
    "C24_gain_flag_refuted",
    "C24_raise_refuted"
   ],
   "note": "Proved for all histories without denominator assignment; all histories keep shapes and a valid sampling period. False with a denominator assignment (flag not updated, object changed by a raising assignment): witnesses."
  },
  {
   "property": "C25",
   "status": "proved",
   "theorems": [
    "C25_transfer_add"
   ],
   "note": "Proved for all pairs of models of equal shape (SISO and MIMO), given the contracts of balancing and SVD inside haroldlcm, cleanup_threshold 0."
  },
  {
   "property": "C26",
   "status": "partial",
   "theorems": [
    "C26_mixed_add_refuted",
    "C26_mixed_gain_refuted",
    "C26_add_scalar_partial",
    "C26_add_array_partial"
   ],
   "note": "False of the code: SISO+MIMO raises AttributeError for every such pair (_classes.py:529-535), and for two gains it fails as well. Broadcasting of numbers and arrays is proved."
  },
  {
   "property": "C27",
   "status": "partial",
   "theorems": [
    "C27_transfer_mul_partial",
    "C27_gain_den_ignored_refuted",
    "C27_scale"
   ],
   "note": "Proved for all pairs except SISO static gains with a denominator other than 1, where the denominator is ignored (_classes.py:708), proved for every such product."
  },
  {
   "property": "C28",
   "status": "partial",
   "theorems": [
    "C28_matmul_partial",
    "C28_matmul_array",
    "C28_array_matmul_partial",
    "C28_array_matmul_discrete_refuted",
    "C28_matmul_gain_den_refuted"
   ],
   "note": "Proved for all conformable pairs whose constant denominators are 1, for model @ array and array @ continuous-time model. False otherwise: gain denominators ignored (witness); array @ discrete model always raises (_classes.py:959), proved for all."
  },
  {
   "property": "C29",
   "status": "partial",
   "theorems": [
    "C29_neg",
    "C29_neg_total",
    "C29_inverse",
    "C29_improper_inverse_partial",
    "C29_improper_inverse_refuted"
   ],
   "note": "Negation and SISO inverse proved (value and existence). Rejection of strictly proper models proved for numerators without leading zeros and false with leading zeros (witness)."
  },
  {
   "property": "C30",
   "status": "partial",
   "theorems": [
    "C30_getitem",
    "C30_getij",
    "C30_getij_total_refuted"
   ],
   "note": "Values and shapes of every successful selection proved. Existence is false for an entry whose numerator is stored with leading zeros (witness)."
  },
  {
   "property": "C31",
   "status": "partial",
   "theorems": [
    "C31_siso_partial",
    "C31_siso_strictly_proper",
    "C31_gain",
    "C31_small_remainder_refuted"
   ],
   "note": "Strictly proper SISO models: proved outright. Biproper ones: proved when the polynomial division leaves no nonzero coefficient below the clean-up threshold of the code; without that the claim is false for every positive threshold (C31_small_remainder_refuted). Static gains of any shape: C31_gain."
  },
  {
   "property": "C32",
   "status": "partial",
   "theorems": [
    "C32_mimo_partial",
    "C32_mimo_returns_partial",
    "C32_leading_zero_refuted"
   ],
   "note": "Value of every returned model proved for all sizes, both branches, tall and fat; a result is returned when numerators carry no superfluous leading zeros. With such a zero and a common denominator the conversion raises ValueError (C32_leading_zero_refuted)."
  },
  {
   "property": "C33",
   "status": "partial",
   "theorems": [
    "C33_dynamic",
    "C33_gain_partial",
    "C33_vector_gain_refuted"
   ],
   "note": "Every State model with states, any shape: the result's entries are C_i adj(xI-A) B_j + D_ij det(xI-A) over det(xI-A), given exact eigenvalues and zeros (contracts in SpecConvert.v). Static gains: proved for 1x1 and p,m>1. Refuted for static gains with exactly one input or exactly one output: state_to_transfer raises ValueError on all of them. The contract on the zeros is met by the code's own transmission_zeros (C77_state_to_transfer)."
  },
  {
   "property": "C34",
   "status": "partial",
   "theorems": [
    "C34_positive_feedback_partial",
    "C34_ill_posed",
    "C34_mismatch",
    "C34_array_operands",
    "C34_zero_gain_refuted",
    "C34_any_operands_partial",
    "C34_static_vector_refuted",
    "C34_any_mismatch"
   ],
   "note": "Proved for all State/array pairs except static loops with a zero gain, for which the code raises UnboundLocalError (line 90), proved for all of them. C34_any_operands_partial: any mix of State, Transfer and array operands that transfer_to_state converts without loss; the result is a Transfer exactly when some operand is and none is a State model, with the right value wherever both operands and the loop are defined, given right eigenvalues and zeros for the conversion back. Excluded: zero static gains, and static Transfer loops that are a row or a column, which always raise ValueError (C34_static_vector_refuted)."
  },
  {
   "property": "C35",
   "status": "partial",
   "theorems": [
    "C35_negative_feedback_partial",
    "C35_static_loop_refuted",
    "C35_well_posed_rejected_refuted",
    "C35_ill_posed_accepted_refuted",
    "C35_any_operands_partial"
   ],
   "note": "False of the code whenever D_H D_G is not zero: line 78 uses I - D_H D_G for both signs. Proved when D_H D_G = 0; refuted for every static scalar loop, with wrong rejections (d n = 1) and wrong acceptances (d n = -1). C35_any_operands_partial: the same for any mix of State, Transfer and array operands."
  },
  {
   "property": "C36",
   "status": "partial",
   "theorems": [
    "C36_tustin",
    "C36_prewarp",
    "C36_forward",
    "C36_backward",
    "C36_lft",
    "C36_singular",
    "C36_refused",
    "C36_nyquist",
    "C36_trapezoidal_refuted"
   ],
   "note": "State models, all aliases in the table of known methods, arbitrary q; 'trapezoidal' is listed by the discretisation code but refused by the method check (refuted for every call). Transfer operands go through the conversions and are not covered here."
  },
  {
   "property": "C37",
   "status": "proved",
   "theorems": [
    "C37_tustin",
    "C37_forward",
    "C37_backward",
    "C37_zoh"
   ],
   "note": "Exact round trip for tustin/bilinear, forward, backward under every alias, and zoh under contracts for expm/logm/balancing."
  },
  {
   "property": "C38",
   "status": "partial",
   "theorems": [
    "C38_lft_inverse",
    "C38_recorded_q_refuted",
    "C38_prewarp_refuted"
   ],
   "note": "False of the code in both halves: prewarped round trip proved to give A/4-3/(2t^2)I, B/2, C/2, D for every model (_discrete_funcs.py:379); the recorded q is applied instead of its inverse (witness). The round trip with an explicitly inverted q is proved."
  },
  {
   "property": "C39",
   "status": "partial",
   "theorems": [
    "C39_discretize_gain",
    "C39_undiscretize_gain_refuted"
   ],
   "note": "discretize proved for State gains of every shape; undiscretize of a State gain raises ValueError for every gain (line 273). Transfer gains not modelled here."
  },
  {
   "property": "C40",
   "status": "proved",
   "theorems": [
    "C40_zoh",
    "C40_foh"
   ],
   "note": "zoh and foh, for every balancing that is a diagonal similarity and every expm commuting with diagonal similarity."
  },
  {
   "property": "C41",
   "status": "partial",
   "theorems": [
    "C41_discrete_partial",
    "C41_continuous_partial",
    "C41_gain",
    "C41_first_order_x0_refuted",
    "C41_single_sample_refuted"
   ],
   "note": "Discrete, continuous (through the zero-order-hold equivalent) and static models, every horizon of at least two samples. False of the code for one-state models with an initial state and for a single sample (refuted theorems)."
  },
  {
   "property": "C42",
   "status": "proved",
   "theorems": [
    "C42_superposition",
    "C42_causal",
    "C42_time_invariant"
   ],
   "note": "Every State model, whatever expm returns."
  },
  {
   "property": "C43",
   "status": "partial",
   "theorems": [
    "C43_channels_from_rest",
    "C43_channels_from_rest_continuous",
    "C43_channel",
    "C43_initial_state_refuted"
   ],
   "note": "From rest, discrete and continuous. With an initial state the free response is counted once per channel (refuted theorem gives the exact excess)."
  },
  {
   "property": "C44",
   "status": "proved",
   "theorems": [
    "C44_impulse",
    "C44_step"
   ],
   "note": "Discrete dynamic models; user supplied or generated time grid."
  },
  {
   "property": "C45",
   "status": "partial",
   "theorems": [
    "C45_elimination",
    "C45_state_partial",
    "C45_refuted",
    "C45_transfer"
   ],
   "note": "C45_elimination: for every order the elimination gives the last row of (sI-A)^-1 B exactly when no leading minor of sI-A vanishes. C45_state_partial: every sample that is a number equals D + C(sI-A)^-1 B; samples are missing exactly where a leading minor of the computed Hessenberg form vanishes. C45_transfer: Transfer models. C45_refuted: no pivoting, the oscillator at frequency 0 gives nan for every admissible factorisation although its response there is 1/k. The automatic grid (w=None) is C79; use_minreal=True is not modelled."
  },
  {
   "property": "C46",
   "status": "partial",
   "theorems": [
    "C46_dynamic_partial",
    "C46_same_unit",
    "C46_gain_refuted",
    "C46_gain_value_refuted",
    "C46_unit_case_refuted"
   ],
   "note": "C46_dynamic_partial: models with dynamics return one sample per requested frequency (without those above Nyquist) and the grid in the requested unit; C46_same_unit. Refuted for static gains (always two samples), for the value of a 1x1 static Transfer (denominator ignored), and for unit names in other case."
  },
  {
   "property": "C47",
   "status": "partial",
   "theorems": [
    "C47_controllability",
    "C47_observability",
    "C47_state_argument",
    "C47_duality",
    "C47_rank",
    "C47_rank_obs",
    "C47_row_compression",
    "C47_mismatch",
    "C47_compress_refuted"
   ],
   "note": "Entries, duality, numerical rank = rank and row compression proved for every size. compress=True returns S V' instead of S V (refuted by an exact svd); observability_matrix reports a shape mismatch as UnboundLocalError (C47_mismatch)."
  },
  {
   "property": "C48",
   "status": "partial",
   "theorems": [
    "C48_kalman_similarity",
    "C48_kalman_transfer",
    "C48_kalman_total",
    "C48_kalman_gain",
    "C48_staircase_c",
    "C48_orth_similar_markov",
    "C48_staircase_o",
    "C48_staircase_o_refuted"
   ],
   "note": "kalman_decomposition: similarity, transfer matrix, totality, assuming only the shapes of the svd factors. staircase: form 'c' always, form 'o' when C does not have full column rank (C48_staircase_o); with full column rank B and C come back exchanged (C48_staircase_o_refuted)."
  },
  {
   "property": "C49",
   "status": "partial",
   "theorems": [
    "C49_ackermann_partial",
    "C49_complex_poles_refuted",
    "C49_multi_input",
    "C49_uncontrollable"
   ],
   "note": "Proved for every n for real poles (Cayley-Hamilton argument); complex poles are refused by the code with TypeError for every pair (refuted)."
  },
  {
   "property": "C50",
   "status": "partial",
   "theorems": [
    "C50_too_few",
    "C50_too_many_refuted"
   ],
   "note": "Too few poles raise IndexError/TypeError; too many are accepted for every controllable pair (refuted)."
  },
  {
   "property": "C51",
   "status": "proved",
   "theorems": [
    "C51_state_weighting",
    "C51_output_weighting",
    "C51_identity",
    "C51_horizon",
    "C51_static_gain",
    "C51_output_shapes"
   ],
   "note": "Completion of squares for every input and state, closed-loop matrix identity, finite-horizon cost; output weighting reduced to state weighting. The Riccati solver is an argument with the documented equation as contract. Transfer arguments not modelled."
  },
  {
   "property": "C52",
   "status": "partial",
   "theorems": [
    "C52_rejected",
    "C52_any_case_state",
    "C52_accepts_fragments_refuted",
    "C52_upper_case_output_refuted"
   ],
   "note": "False of the code: weight_on is tested as a substring of \"state, output\"; fragments and \"OUTPUT\" are accepted as state weighting."
  },
  {
   "property": "C53",
   "status": "partial",
   "theorems": [
    "C53_continuous",
    "C53_generalized",
    "C53_rejects",
    "C53_integer_refuted"
   ],
   "note": "All four loops are modelled slice by slice; the factorisations schur and qz are arguments with their contracts (SpecLyap.v). For every size, every pattern of 1x1 and 2x2 blocks, every content of the uninitialised array and symmetric Y, whatever is returned for floating-point data is symmetric and solves X A + A'X + Y = 0 (E'XA + A'XE + Y = 0 with E). Refuted for an integer Y with n >= 3: np.empty_like(Y) is an integer array and the solution is truncated."
  },
  {
   "property": "C54",
   "status": "proved",
   "theorems": [
    "C54_discrete",
    "C54_generalized"
   ],
   "note": "Same for A'XA - X + Y = 0 and A'XA - E'XE + Y = 0."
  },
  {
   "property": "C55",
   "status": "partial",
   "theorems": [
    "C55_reassemble",
    "C55_accepts",
    "C55_corner_shape_partial",
    "C55_ne_refuted"
   ],
   "note": "Reassembly of the four blocks proved for corners se, nw and sw with exact acceptance condition; the corner size documented for 'ne' is refuted (_aux_linalg.py:430 uses p=x)."
  },
  {
   "property": "C56",
   "status": "proved",
   "theorems": [
    "C56_columns",
    "C56_rows",
    "C56_accepts"
   ],
   "note": "e_i returns columns of the identity"
  },
  {
   "property": "C57",
   "status": "partial",
   "theorems": [
    "C57_fullrank_partial",
    "C57_zero_partial",
    "C57_ker_refuted"
   ],
   "note": "False of the code: V is returned untransposed, so N*ker is nonzero for a witness and every admissible svd; proved for full rank and for the zero matrix."
  },
  {
   "property": "C58",
   "status": "proved",
   "theorems": [
    "C58_pairs",
    "C58_shape",
    "C58_odd",
    "C58_unpaired_refuted"
   ],
   "note": "Proved for every conjugation-closed list and all four option combinations; every returned result has the paired shape; odd counts raise ValueError. That unpairable lists raise ValueError is false: two equal numbers end in IndexError (C58_unpaired_refuted)."
  },
  {
   "property": "C59",
   "status": "proved",
   "theorems": [
    "C59_slice_concat",
    "C59_gain"
   ],
   "note": "concatenate_state_matrices and matrix_slice are inverse"
  },
  {
   "property": "C60",
   "status": "partial",
   "theorems": [
    "C60_returns",
    "C60_continuous",
    "C60_discrete",
    "C60_first_order_partial",
    "C60_first_order_refuted"
   ],
   "note": "Two or more states: proved for every outcome of the random generator, continuous and discrete (expm of a dissipative matrix assumed a contraction). One state, continuous: the pole is -rand(), and rand() may return 0 (C60_first_order_refuted); negative exactly when the draw is nonzero."
  },
  {
   "property": "C61",
   "status": "partial",
   "theorems": [
    "C61_continuous",
    "C61_discrete_partial",
    "C61_discrete_small_tol",
    "C61_gain",
    "C61_discrete_refuted"
   ],
   "note": "Continuous models: proved for every entry. Discrete models: proved when num and den either vanish at 1 exactly or exceed the tolerance there; false in general: c/(z-1) with |c| below the tolerance yields 0 instead of inf (C61_discrete_refuted)."
  },
  {
   "property": "C62",
   "status": "partial",
   "theorems": [
    "C62_exact_partial",
    "C62_full_rank",
    "C62_shrinks",
    "C62_gain_refuted",
    "C62_uncontrollable_refuted",
    "C62_full_output_refuted",
    "C62_observable_refuted",
    "C62_transfer_refuted"
   ],
   "note": "C62_shrinks: termination, size and sampling period for any outcome of the numerics. C62_exact_partial: with exact decisions, B nonzero and rank C < n the result exists, has the same transfer matrix and is controllable; also observable if the unobservable states form at most a line. Refuted outside these cases: static gains lose dt, B = 0 raises IndexError, full-rank C raises ValueError or (as many inputs as states) can return a model with another transfer matrix, several unobservable states need not be removed."
  },
  {
   "property": "C63",
   "status": "proved",
   "theorems": [
    "C63_siso",
    "C63_entries"
   ],
   "note": "Any shape; exact roots and the separation of distinct roots by the tolerance are hypotheses (rts_ok, sep)."
  },
  {
   "property": "C64",
   "status": "partial",
   "theorems": [
    "C64_single_partial",
    "C64_feedthrough_refuted",
    "C64_represents",
    "C64_pattern",
    "C64_T_partial",
    "C64_multi_input_refuted",
    "C64_T_invert_refuted"
   ],
   "note": "Holds for one input (form c) or one output (form o) and D = 0 (C64_single_partial). Refuted: D is always dropped (C64_feedthrough_refuted), several inputs get the wrong B (C64_multi_input_refuted). C64_represents says what the result is in all cases; C64_pattern the zero pattern; C64_T_partial and C64_T_invert_refuted the returned T."
  },
  {
   "property": "C65",
   "status": "proved",
   "theorems": [
    "C65_returns",
    "C65_indices",
    "C65_controllable",
    "C65_invariant"
   ],
   "note": "C65_indices: the vectors A^k b_j with k below the j-th index are a basis of the reachable space, the indices cut off at K add up to rank [B..A^(K-1)B] for every K, and their sum is the rank of [B..A^(n-1)B]. C65_invariant: up to order the indices are unchanged by state/input coordinates and state feedback. Hypotheses: exact qr and square roots, and norms that are 0 or above the tolerance."
  },
  {
   "property": "C66",
   "status": "partial",
   "theorems": [
    "C66_discrete_partial",
    "C66_continuous",
    "C66_infinite",
    "C66_other",
    "C66_feedthrough_refuted",
    "C66_gain_refuted"
   ],
   "note": "H2 norm: for stable models with D = 0 the returned number squares to the energy of the impulse response (discrete: the limit of the partial sums of |C A^k B|^2; continuous: trace(C X C') with X the gramian). C66_infinite says exactly when inf is returned. Refuted: a stable discrete model with D != 0 gets inf although its energy is finite (C66_feedthrough_refuted), a zero static gain raises (C66_gain_refuted)."
  },
  {
   "property": "C67",
   "status": "partial",
   "theorems": [
    "C67_add_total_refuted"
   ],
   "note": "False of the code: 1/(s+1) - 1/(s+2) raises because the cancelled leading coefficient is not trimmed."
  },
  {
   "property": "C68",
   "status": "partial",
   "theorems": [
    "C68_accepted_time",
    "C68_equal_spacing_refuted"
   ],
   "note": "Accepted arrays are equally spaced up to the np.allclose tolerances; exact rejection is false because of the absolute tolerance."
  },
  {
   "property": "C69",
   "status": "partial",
   "theorems": [
    "C69_kalman_structure",
    "C69_observable_part_refuted"
   ],
   "note": "Controllable part proved (zero rows/blocks, leading subsystem has the same transfer matrix); observable part refuted: the code uses V instead of its transpose."
  },
  {
   "property": "C70",
   "status": "proved",
   "theorems": [
    "C70_round_trip"
   ],
   "note": "Any shape, any sampling period, any clean-up threshold. Models with D != 0 are excluded because transfer_to_state drops small remainder coefficients (C31)."
  },
  {
   "property": "C71",
   "status": "partial",
   "theorems": [
    "C71_discrete_refuted",
    "C71_no_crossing",
    "C71_infinite",
    "C71_gain_refuted",
    "C71_siso",
    "C71_continuous"
   ],
   "note": "Proved for continuous models of any size: the value is l(1+sqrt eps), l is attained, and every gain at every frequency is below l(1+2 sqrt eps) (C71_continuous, over real closed fields; C71_siso and C71_no_crossing over any ordered field). Missing: termination of the loop within 51 passes. Discrete models are refuted (C71_discrete_refuted), static gains raise (C71_gain_refuted)."
  },
  {
   "property": "C72",
   "status": "proved",
   "theorems": [
    "C72_staircase_c",
    "C72_staircase_o"
   ],
   "note": "Both forms, with and without invert; form 'o' when C does not have full column rank."
  },
  {
   "property": "C73",
   "status": "partial",
   "theorems": [
    "C73_order_refuted"
   ],
   "note": "False of the code: the pivoted QR picks the largest columns first. For B = [1, 2] every admissible factorisation gives the first column the index 0 (C73_order_refuted)."
  },
  {
   "property": "C74",
   "status": "partial",
   "theorems": [
    "C74_gain_partial",
    "C74_gain_dt_refuted",
    "C74_vector_gain_refuted",
    "C74_leading_zero_refuted",
    "C74_zero_refuted",
    "C74_pair_refuted"
   ],
   "note": "Proved: static gains p x m with p,m>1 or 1x1 keep their value. Refuted: every discrete gain loses its sampling period; 1 x m and p x 1 gains raise ValueError; a numerator with a leading zero is replaced by 0; 0/den is not reduced; a complex zero pair near one real pole raises TypeError."
  },
  {
   "property": "C75",
   "status": "proved",
   "theorems": [
    "C75_controllable",
    "C75_steps",
    "C75_hidden",
    "C75_observable",
    "C75_state"
   ],
   "note": "for every size and every A, B, C; svd exact on the controllability/observability matrix (svd_exact). Reachability is stated with discrete-time trajectories of unbounded length; continuous-time reachability is the same rank condition but is not modelled."
  },
  {
   "property": "C76",
   "status": "partial",
   "theorems": [
    "C76_value_partial",
    "C76_regular_partial",
    "C76_gain",
    "C76_zero_input_refuted",
    "C76_full_output_refuted",
    "C76_sign_refuted"
   ],
   "note": "Partial. Proved with exact numerics for models in which the inputs act and C has not full column rank, or B and C have full rank with as many inputs as states, and channels with at most a line of reachable unobservable states. Refuted: zero input matrix raises IndexError; full-rank C with another number of inputs raises ValueError; the infinity is always +inf, so State and Transfer models of -2/s disagree."
  },
  {
   "property": "C77",
   "status": "partial",
   "theorems": [
    "C77_zeros",
    "C77_full_column",
    "C77_trivial",
    "C77_square",
    "C77_wide_refuted",
    "C77_degenerate_refuted",
    "C77_siso",
    "C77_state_to_transfer"
   ],
   "note": "Exact numerics (svd of D and of every compressed block with singular values 0 or above the tolerance, exact generalized eigenvalues of the final pencil). Proved for full normal column rank, for square invertible models with multiplicities, for SISO channels (numerator roots), for B = 0 or C = 0, and for any model whose final pencil is regular. Refuted: with an inert input direction (wide models) the answer depends on the kernel basis the svd happens to return and may contain inf; for a zero transfer function with B, C nonzero a point is returned at which no rank is lost. C77_state_to_transfer discharges the zeros contract of C33."
  },
  {
   "property": "C78",
   "status": "partial",
   "theorems": [
    "C78_continuous",
    "C78_gain",
    "C78_total",
    "C78_discrete_partial",
    "C78_discrete_refuted",
    "C78_real_poles_refuted",
    "C78_slow_sampling_refuted"
   ],
   "note": "pi, log 100, sqrt eps, floor, abs, log, eigenvalues, eigenvector norms and sensitivities are arguments; contracts for floor, abs and log. Continuous models and static gains: full claim, and both responses are computed (C78_total). Discrete models: complex poles inside or on the unit circle are covered (C78_discrete_partial) outside the two cases in which ValueError is raised (C78_discrete_refuted); for real positive poles the claim is false (C78_real_poles_refuted, C78_slow_sampling_refuted)."
  },
  {
   "property": "C79",
   "status": "partial",
   "theorems": [
    "C79_grid",
    "C79_avoids",
    "C79_range",
    "C79_discrete",
    "C79_slow_refuted",
    "C79_gain",
    "C79_transfer",
    "C79_state_partial"
   ],
   "note": "pi, eps, spacing, sqrt, log10, 10**x, abs and log of complex numbers, floor, geomspace and unique are arguments with contracts (grid_numerics). Grid: C79_grid, C79_avoids, C79_range, C79_discrete, C79_gain. Transfer models: full claim (C79_transfer). State models: no sample is at a pole, but the unpivoted elimination of the code may still meet a vanishing leading minor and give nan there (C79_state_partial). C79_slow_refuted: ValueError for extremely slow models. C79_example instantiates every contract and hypothesis for 1/(s^2+1)."
  },
  {
   "property": "C80",
   "status": "partial",
   "theorems": [
    "C80_rows",
    "C80_location",
    "C80_mode",
    "C80_stable",
    "C80_pair",
    "C80_integrator",
    "C80_delay_refuted"
   ],
   "note": "C80_rows, C80_location, C80_mode, C80_stable, C80_pair, C80_integrator prove the statement for all poles; modulus, exponential and logarithm are arguments with contracts. C80_delay_refuted: discrete poles at 0. The poles themselves (eigenvalues) are an argument."
  },
  {
   "property": "C81",
   "status": "partial",
   "theorems": [
    "C81_bode_partial",
    "C81_values_partial",
    "C81_style_refuted",
    "C81_common_grid_refuted",
    "C81_gain_refuted",
    "C81_phase_refuted",
    "C81_nyquist_partial",
    "C81_pad_partial",
    "C81_pad_refuted"
   ],
   "note": "C81_bode_partial (all curves, from the responses), C81_values_partial (given frequencies, systems with dynamics: values), C81_nyquist_partial, C81_pad_partial (one-sided padding). Missing: values on automatic grids. Refuted parts: C81_style_refuted, C81_common_grid_refuted, C81_pad_refuted, C81_gain_refuted, C81_phase_refuted."
  },
  {
   "property": "C82",
   "status": "proved",
   "theorems": [
    "C82_unique",
    "C82_channels",
    "C82_combined",
    "C82_step",
    "C82_impulse",
    "C82_continuous",
    "C82_initial_state"
   ],
   "note": "C82_channels, C82_combined, C82_step, C82_impulse: every discrete Transfer that meets the conditions of C31/C32 under which the conversion is exact; C82_unique: the equations have one solution; C82_initial_state. C82_continuous: a continuous Transfer is simulated as an equivalent State model."
  },
  {
   "property": "C83",
   "status": "partial",
   "theorems": [
    "C83_step_curves_partial",
    "C83_impulse_curves_partial",
    "C83_step_style_refuted",
    "C83_impulse_style_refuted",
    "C83_step_discrete",
    "C83_impulse_discrete"
   ],
   "note": "C83_step_curves_partial, C83_impulse_curves_partial: the exact list of curves and the limit, for all systems that are simulated (style not shorter than the list; impulse curves carry no style). C83_step_discrete, C83_impulse_discrete: discrete systems: simulation succeeds and values are the Markov sums or the difference equations. Missing: values of continuous systems (C41, C44 give the State simulation). Refuted parts: C83_step_style_refuted, C83_impulse_style_refuted."
  },
  {
   "property": "C84",
   "status": "partial",
   "theorems": [
    "C84_tustin",
    "C84_prewarp",
    "C84_forward",
    "C84_backward",
    "C84_lft",
    "C84_refused",
    "C84_undiscretize_refused",
    "C84_undiscretize_tustin",
    "C84_undiscretize_forward",
    "C84_round_trip_tustin",
    "C84_round_trip_forward",
    "C84_undiscretize_backward",
    "C84_round_trip_backward",
    "C84_undiscretize_lft",
    "C84_zoh",
    "C84_foh",
    "C84_gain_partial",
    "C84_vector_gain_refuted",
    "C84_undiscretize_gain_refuted"
   ],
   "note": "Proved for tustin (with and without prewarping), forward, backward, lft, zoh, foh; inverse substitution and round trips. Eigenvalues and zeros of the intermediate State model are arguments with the contract numerics_ok. Partial because static gains with one row or column are refused (C84_vector_gain_refuted) and static gains cannot be undiscretised (C84_undiscretize_gain_refuted)."
  },
  {
   "property": "C85",
   "status": "partial",
   "theorems": [
    "C85_hinf",
    "C85_h2_discrete_partial",
    "C85_h2_continuous_partial",
    "C85_infinite",
    "C85_other",
    "C85_gain_refuted"
   ],
   "note": "The numerics (frequency response, eigenvalues of the Hamiltonian matrix, real Schur form) are assumed correct for the converted model, as in C66 and C71. The 2-norm of continuous models is reduced to the gramian of the realisation, not to the energy of the impulse response. Static gains are refuted."
  },
  {
   "property": "C86",
   "status": "partial",
   "theorems": [
    "C86_upper2",
    "C86_upper1",
    "C86_chosen",
    "C86_location",
    "C86_lower_partial",
    "C86_zero",
    "C86_errors",
    "C86_lower_refuted"
   ],
   "note": "eig, cond and svdvals are assumed right for the one call made. The lower bound is proved under the proviso that e_f is the computed eigenvalue at which the pencil is nearest to losing rank, and refuted without it. The docstring's disk around e_f is proved for a disk around some computed eigenvalue."
  },
  {
   "property": "C87",
   "status": "partial",
   "theorems": [
    "C87_add",
    "C87_add_siso",
    "C87_add_ok",
    "C87_add_dt_refuted",
    "C87_matmul_st",
    "C87_matmul_st_ok",
    "C87_matmul_st_siso",
    "C87_matmul_st_sisoT",
    "C87_mul_order",
    "C87_mul_siso",
    "C87_matmul_ts_refuted",
    "C87_dt",
    "C87_mul_refuted",
    "C87_add_gains",
    "C87_add_gainT",
    "C87_add_gainS",
    "C87_add_ts_gainS",
    "C87_matmul_gains",
    "C87_matmul_gainT",
    "C87_matmul_gainS_partial",
    "C87_matmul_gainS_refuted",
    "C87_add_sisoT"
   ],
   "note": "The Transfer is one transfer_to_state converts exactly (convertible) where a conversion happens. Every branch of the sum, static gains included, is covered for equal shapes; SISO broadcasting in sums is covered for dynamic models. A static gain State @ a dynamic Transfer is proved in continuous time (C87_matmul_gainS_partial) and refuted in discrete time for matrix gains. The order of Transfer * State, the error of MIMO Transfer @ State and the lost sampling period of sums are refutations."
  }
 ]
}