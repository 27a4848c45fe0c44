{
 "C10": {
  "note": "False of the code as stated: State+State of two dynamic models drops the sampling period (_classes.py:1982). Refuted by a witness, proved for gains/arrays/scalars, and proved to fail for every dynamic pair."
 },
 "C11": {
  "note": "False of the code: a SISO dynamic model plus a 1x1 array (or SISO gain) recurses for ever (_classes.py:2082-2087), proved for every such pair; success with recursion depth 3 proved for all other compatible pairs."
 },
 "C14": {
  "note": "c*G, G*M, M*G, G+c, G+A proved for all models; G*c proved for dynamic models only because a static gain times a scalar raises TypeError (_classes.py:2303), which is proved for every gain."
 },
 "C03": {
  "note": "False of the code: cancelling leading coefficients are not trimmed. Refuted by a witness; the exact condition under which the output is trimmed is proved."
 },
 "C04": {
  "note": "Product proved whenever the first factor is nonzero (or trim_zeros=False); a vanishing first factor followed by a non-vanishing one raises ValueError, proved for every such call."
 },
 "C07": {
  "note": "A greatest common divisor is proved for every list with equal positive degrees or two different positive degrees, for all-constant lists and for one argument. False when constants are the only polynomials below the largest degree (the docstring example 2 and 2s+4): proved for every such list."
 },
 "C08": {
  "note": "Monic least common multiple and multipliers proved for every list of polynomials without leading zeros, with cleanup_threshold=0 and abstract balancing/SVD contracts (met for every matrix). Lists with a leading zero raise ValueError (proved), and every positive threshold, including the default 1e-9, is proved to break some list."
 },
 "C23": {
  "note": "Acceptance implies causality for all argument forms unless a denominator is stored with leading zeros; acceptance iff causality proved for flat lists and for lists of lists. False for arrays with leading zeros in both directions (_classes.py:1569): witnesses."
 },
 "C24": {
  "note": "Proved for all histories without denominator assignment; all histories keep shapes and a valid sampling period. False with a denominator assignment (flag not updated, object changed by a raising assignment): witnesses."
 },
 "C25": {
  "note": "Proved for all pairs of models of equal shape (SISO and MIMO), given the contracts of balancing and SVD inside haroldlcm, cleanup_threshold 0."
 },
 "C26": {
  "note": "False of the code: SISO+MIMO raises AttributeError for every such pair (_classes.py:529-535), and for two gains it fails as well. Broadcasting of numbers and arrays is proved."
 },
 "C27": {
  "note": "Proved for all pairs except SISO static gains with a denominator other than 1, where the denominator is ignored (_classes.py:708), proved for every such product."
 },
 "C28": {
  "note": "Proved for all conformable pairs whose constant denominators are 1, for model @ array and array @ continuous-time model. False otherwise: gain denominators ignored (witness); array @ discrete model always raises (_classes.py:959), proved for all."
 },
 "C29": {
  "note": "Negation and SISO inverse proved (value and existence). Rejection of strictly proper models proved for numerators without leading zeros and false with leading zeros (witness)."
 },
 "C30": {
  "note": "Values and shapes of every successful selection proved. Existence is false for an entry whose numerator is stored with leading zeros (witness)."
 },
 "C67": {
  "note": "False of the code: 1/(s+1) - 1/(s+2) raises because the cancelled leading coefficient is not trimmed."
 },
 "C20": {
  "note": "Rejected assignments leave the object unchanged (all histories); all histories starting from an accepted model and not assigning an empty d keep the matrices consistent. False with an empty d: assigning None to the d of a static gain is accepted and gives a 0x0 model (witness)."
 },
 "C21": {
  "note": "False of the code: assigning SamplingPeriod does not recompute the stability flag (State and Transfer; witnesses and the exact stale value proved). Proved for every history whose last assignment recomputes."
 },
 "C22": {
  "note": "False of the code: the d of a static gain model can never be reassigned to a nonempty matrix (proved for all); proved for dynamic models."
 },
 "C55": {
  "note": "Reassembly of the four blocks proved for corners se, nw and sw with exact acceptance condition; the corner size documented for 'ne' is refuted (_aux_linalg.py:430 uses p=x)."
 },
 "C57": {
  "note": "False of the code: V is returned untransposed, so N*ker is nonzero for a witness and every admissible svd; proved for full rank and for the zero matrix."
 },
 "C34": {
  "note": "Proved for all State/array pairs except static loops with a zero gain, for which the code raises UnboundLocalError (line 90), proved for all of them. C34_any_operands_partial: any mix of State, Transfer and array operands that transfer_to_state converts without loss; the result is a Transfer exactly when some operand is and none is a State model, with the right value wherever both operands and the loop are defined, given right eigenvalues and zeros for the conversion back. Excluded: zero static gains, and static Transfer loops that are a row or a column, which always raise ValueError (C34_static_vector_refuted)."
 },
 "C35": {
  "note": "False of the code whenever D_H D_G is not zero: line 78 uses I - D_H D_G for both signs. Proved when D_H D_G = 0; refuted for every static scalar loop, with wrong rejections (d n = 1) and wrong acceptances (d n = -1). C35_any_operands_partial: the same for any mix of State, Transfer and array operands."
 },
 "C36": {
  "note": "State models, all aliases in the table of known methods, arbitrary q; 'trapezoidal' is listed by the discretisation code but refused by the method check (refuted for every call). Transfer operands go through the conversions and are not covered here."
 },
 "C37": {
  "note": "Exact round trip for tustin/bilinear, forward, backward under every alias, and zoh under contracts for expm/logm/balancing."
 },
 "C38": {
  "note": "False of the code in both halves: prewarped round trip proved to give A/4-3/(2t^2)I, B/2, C/2, D for every model (_discrete_funcs.py:379); the recorded q is applied instead of its inverse (witness). The round trip with an explicitly inverted q is proved."
 },
 "C39": {
  "note": "discretize proved for State gains of every shape; undiscretize of a State gain raises ValueError for every gain (line 273). Transfer gains not modelled here."
 },
 "C40": {
  "note": "zoh and foh, for every balancing that is a diagonal similarity and every expm commuting with diagonal similarity."
 },
 "C41": {
  "note": "Discrete, continuous (through the zero-order-hold equivalent) and static models, every horizon of at least two samples. False of the code for one-state models with an initial state and for a single sample (refuted theorems)."
 },
 "C42": {
  "note": "Every State model, whatever expm returns."
 },
 "C43": {
  "note": "From rest, discrete and continuous. With an initial state the free response is counted once per channel (refuted theorem gives the exact excess)."
 },
 "C44": {
  "note": "Discrete dynamic models; user supplied or generated time grid."
 },
 "C68": {
  "note": "Accepted arrays are equally spaced up to the np.allclose tolerances; exact rejection is false because of the absolute tolerance."
 },
 "C47": {
  "note": "Entries, duality, numerical rank = rank and row compression proved for every size. compress=True returns S V' instead of S V (refuted by an exact svd); observability_matrix reports a shape mismatch as UnboundLocalError (C47_mismatch)."
 },
 "C48": {
  "status": "partial",
  "note": "kalman_decomposition: similarity, transfer matrix, totality, assuming only the shapes of the svd factors. staircase: form 'c' always, form 'o' when C does not have full column rank (C48_staircase_o); with full column rank B and C come back exchanged (C48_staircase_o_refuted)."
 },
 "C49": {
  "note": "Proved for every n for real poles (Cayley-Hamilton argument); complex poles are refused by the code with TypeError for every pair (refuted)."
 },
 "C50": {
  "note": "Too few poles raise IndexError/TypeError; too many are accepted for every controllable pair (refuted)."
 },
 "C51": {
  "note": "Completion of squares for every input and state, closed-loop matrix identity, finite-horizon cost; output weighting reduced to state weighting. The Riccati solver is an argument with the documented equation as contract. Transfer arguments not modelled."
 },
 "C52": {
  "note": "False of the code: weight_on is tested as a substring of \"state, output\"; fragments and \"OUTPUT\" are accepted as state weighting."
 },
 "C69": {
  "note": "Controllable part proved (zero rows/blocks, leading subsystem has the same transfer matrix); observable part refuted: the code uses V instead of its transpose."
 },
 "C31": {
  "note": "Strictly proper SISO models: proved outright. Biproper ones: proved when the polynomial division leaves no nonzero coefficient below the clean-up threshold of the code; without that the claim is false for every positive threshold (C31_small_remainder_refuted). Static gains of any shape: C31_gain."
 },
 "C32": {
  "note": "Value of every returned model proved for all sizes, both branches, tall and fat; a result is returned when numerators carry no superfluous leading zeros. With such a zero and a common denominator the conversion raises ValueError (C32_leading_zero_refuted)."
 },
 "C33": {
  "note": "Every State model with states, any shape: the result's entries are C_i adj(xI-A) B_j + D_ij det(xI-A) over det(xI-A), given exact eigenvalues and zeros (contracts in SpecConvert.v). Static gains: proved for 1x1 and p,m>1. Refuted for static gains with exactly one input or exactly one output: state_to_transfer raises ValueError on all of them. The contract on the zeros is met by the code's own transmission_zeros (C77_state_to_transfer)."
 },
 "C70": {
  "note": "Any shape, any sampling period, any clean-up threshold. Models with D != 0 are excluded because transfer_to_state drops small remainder coefficients (C31)."
 },
 "C45": {
  "note": "C45_elimination: for every order the elimination gives the last row of (sI-A)^-1 B exactly when no leading minor of sI-A vanishes. C45_state_partial: every sample that is a number equals D + C(sI-A)^-1 B; samples are missing exactly where a leading minor of the computed Hessenberg form vanishes. C45_transfer: Transfer models. C45_refuted: no pivoting, the oscillator at frequency 0 gives nan for every admissible factorisation although its response there is 1/k. The automatic grid (w=None) is C79; use_minreal=True is not modelled."
 },
 "C46": {
  "note": "C46_dynamic_partial: models with dynamics return one sample per requested frequency (without those above Nyquist) and the grid in the requested unit; C46_same_unit. Refuted for static gains (always two samples), for the value of a 1x1 static Transfer (denominator ignored), and for unit names in other case."
 },
 "C64": {
  "note": "Holds for one input (form c) or one output (form o) and D = 0 (C64_single_partial). Refuted: D is always dropped (C64_feedthrough_refuted), several inputs get the wrong B (C64_multi_input_refuted). C64_represents says what the result is in all cases; C64_pattern the zero pattern; C64_T_partial and C64_T_invert_refuted the returned T."
 },
 "C58": {
  "note": "Proved for every conjugation-closed list and all four option combinations; every returned result has the paired shape; odd counts raise ValueError. That unpairable lists raise ValueError is false: two equal numbers end in IndexError (C58_unpaired_refuted).",
  "status": "proved"
 },
 "C61": {
  "note": "Continuous models: proved for every entry. Discrete models: proved when num and den either vanish at 1 exactly or exceed the tolerance there; false in general: c/(z-1) with |c| below the tolerance yields 0 instead of inf (C61_discrete_refuted)."
 },
 "C60": {
  "note": "Two or more states: proved for every outcome of the random generator, continuous and discrete (expm of a dissipative matrix assumed a contraction). One state, continuous: the pole is -rand(), and rand() may return 0 (C60_first_order_refuted); negative exactly when the draw is nonzero."
 },
 "C53": {
  "note": "All four loops are modelled slice by slice; the factorisations schur and qz are arguments with their contracts (SpecLyap.v). For every size, every pattern of 1x1 and 2x2 blocks, every content of the uninitialised array and symmetric Y, whatever is returned for floating-point data is symmetric and solves X A + A'X + Y = 0 (E'XA + A'XE + Y = 0 with E). Refuted for an integer Y with n >= 3: np.empty_like(Y) is an integer array and the solution is truncated."
 },
 "C54": {
  "note": "Same for A'XA - X + Y = 0 and A'XA - E'XE + Y = 0."
 },
 "C66": {
  "note": "H2 norm: for stable models with D = 0 the returned number squares to the energy of the impulse response (discrete: the limit of the partial sums of |C A^k B|^2; continuous: trace(C X C') with X the gramian). C66_infinite says exactly when inf is returned. Refuted: a stable discrete model with D != 0 gets inf although its energy is finite (C66_feedthrough_refuted), a zero static gain raises (C66_gain_refuted)."
 },
 "C71": {
  "note": "Proved for continuous models of any size: the value is l(1+sqrt eps), l is attained, and every gain at every frequency is below l(1+2 sqrt eps) (C71_continuous, over real closed fields; C71_siso and C71_no_crossing over any ordered field). Missing: termination of the loop within 51 passes. Discrete models are refuted (C71_discrete_refuted), static gains raise (C71_gain_refuted)."
 },
 "C62": {
  "status": "partial",
  "note": "C62_shrinks: termination, size and sampling period for any outcome of the numerics. C62_exact_partial: with exact decisions, B nonzero and rank C < n the result exists, has the same transfer matrix and is controllable; also observable if the unobservable states form at most a line. Refuted outside these cases: static gains lose dt, B = 0 raises IndexError, full-rank C raises ValueError or (as many inputs as states) can return a model with another transfer matrix, several unobservable states need not be removed."
 },
 "C72": {
  "note": "Both forms, with and without invert; form 'o' when C does not have full column rank."
 },
 "C65": {
  "note": "C65_indices: the vectors A^k b_j with k below the j-th index are a basis of the reachable space, the indices cut off at K add up to rank [B..A^(K-1)B] for every K, and their sum is the rank of [B..A^(n-1)B]. C65_invariant: up to order the indices are unchanged by state/input coordinates and state feedback. Hypotheses: exact qr and square roots, and norms that are 0 or above the tolerance."
 },
 "C73": {
  "note": "False of the code: the pivoted QR picks the largest columns first. For B = [1, 2] every admissible factorisation gives the first column the index 0 (C73_order_refuted)."
 },
 "C63": {
  "note": "Any shape; exact roots and the separation of distinct roots by the tolerance are hypotheses (rts_ok, sep)."
 },
 "C74": {
  "note": "Proved: static gains p x m with p,m>1 or 1x1 keep their value. Refuted: every discrete gain loses its sampling period; 1 x m and p x 1 gains raise ValueError; a numerator with a leading zero is replaced by 0; 0/den is not reduced; a complex zero pair near one real pole raises TypeError."
 },
 "C75": {
  "note": "for every size and every A, B, C; svd exact on the controllability/observability matrix (svd_exact). Reachability is stated with discrete-time trajectories of unbounded length; continuous-time reachability is the same rank condition but is not modelled."
 },
 "C76": {
  "note": "Partial. Proved with exact numerics for models in which the inputs act and C has not full column rank, or B and C have full rank with as many inputs as states, and channels with at most a line of reachable unobservable states. Refuted: zero input matrix raises IndexError; full-rank C with another number of inputs raises ValueError; the infinity is always +inf, so State and Transfer models of -2/s disagree."
 },
 "C77": {
  "note": "Exact numerics (svd of D and of every compressed block with singular values 0 or above the tolerance, exact generalized eigenvalues of the final pencil). Proved for full normal column rank, for square invertible models with multiplicities, for SISO channels (numerator roots), for B = 0 or C = 0, and for any model whose final pencil is regular. Refuted: with an inert input direction (wide models) the answer depends on the kernel basis the svd happens to return and may contain inf; for a zero transfer function with B, C nonzero a point is returned at which no rank is lost. C77_state_to_transfer discharges the zeros contract of C33."
 },
 "C78": {
  "note": "pi, log 100, sqrt eps, floor, abs, log, eigenvalues, eigenvector norms and sensitivities are arguments; contracts for floor, abs and log. Continuous models and static gains: full claim, and both responses are computed (C78_total). Discrete models: complex poles inside or on the unit circle are covered (C78_discrete_partial) outside the two cases in which ValueError is raised (C78_discrete_refuted); for real positive poles the claim is false (C78_real_poles_refuted, C78_slow_sampling_refuted)."
 },
 "C79": {
  "note": "pi, eps, spacing, sqrt, log10, 10**x, abs and log of complex numbers, floor, geomspace and unique are arguments with contracts (grid_numerics). Grid: C79_grid, C79_avoids, C79_range, C79_discrete, C79_gain. Transfer models: full claim (C79_transfer). State models: no sample is at a pole, but the unpivoted elimination of the code may still meet a vanishing leading minor and give nan there (C79_state_partial). C79_slow_refuted: ValueError for extremely slow models. C79_example instantiates every contract and hypothesis for 1/(s^2+1)."
 },
 "C80": {
  "note": "C80_rows, C80_location, C80_mode, C80_stable, C80_pair, C80_integrator prove the statement for all poles; modulus, exponential and logarithm are arguments with contracts. C80_delay_refuted: discrete poles at 0. The poles themselves (eigenvalues) are an argument."
 },
 "C81": {
  "note": "C81_bode_partial (all curves, from the responses), C81_values_partial (given frequencies, systems with dynamics: values), C81_nyquist_partial, C81_pad_partial (one-sided padding). Missing: values on automatic grids. Refuted parts: C81_style_refuted, C81_common_grid_refuted, C81_pad_refuted, C81_gain_refuted, C81_phase_refuted."
 },
 "C82": {
  "note": "C82_channels, C82_combined, C82_step, C82_impulse: every discrete Transfer that meets the conditions of C31/C32 under which the conversion is exact; C82_unique: the equations have one solution; C82_initial_state. C82_continuous: a continuous Transfer is simulated as an equivalent State model."
 },
 "C83": {
  "note": "C83_step_curves_partial, C83_impulse_curves_partial: the exact list of curves and the limit, for all systems that are simulated (style not shorter than the list; impulse curves carry no style). C83_step_discrete, C83_impulse_discrete: discrete systems: simulation succeeds and values are the Markov sums or the difference equations. Missing: values of continuous systems (C41, C44 give the State simulation). Refuted parts: C83_step_style_refuted, C83_impulse_style_refuted."
 },
 "C84": {
  "note": "Proved for tustin (with and without prewarping), forward, backward, lft, zoh, foh; inverse substitution and round trips. Eigenvalues and zeros of the intermediate State model are arguments with the contract numerics_ok. Partial because static gains with one row or column are refused (C84_vector_gain_refuted) and static gains cannot be undiscretised (C84_undiscretize_gain_refuted)."
 },
 "C85": {
  "note": "The numerics (frequency response, eigenvalues of the Hamiltonian matrix, real Schur form) are assumed correct for the converted model, as in C66 and C71. The 2-norm of continuous models is reduced to the gramian of the realisation, not to the energy of the impulse response. Static gains are refuted."
 },
 "C86": {
  "note": "eig, cond and svdvals are assumed right for the one call made. The lower bound is proved under the proviso that e_f is the computed eigenvalue at which the pencil is nearest to losing rank, and refuted without it. The docstring's disk around e_f is proved for a disk around some computed eigenvalue."
 },
 "C87": {
  "note": "The Transfer is one transfer_to_state converts exactly (convertible) where a conversion happens. Every branch of the sum, static gains included, is covered for equal shapes; SISO broadcasting in sums is covered for dynamic models. A static gain State @ a dynamic Transfer is proved in continuous time (C87_matmul_gainS_partial) and refuted in discrete time for matrix gains. The order of Transfer * State, the error of MIMO Transfer @ State and the lost sampling period of sums are refutations."
 }
}