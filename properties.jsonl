{"id": "C01", "title": "haroldpoly builds the monic polynomial with the given roots", "statement": "haroldpoly(r) returns the coefficients (highest power first) of the product over i of (s - r[i]): length len(r)+1, leading coefficient 1, and [1] for no roots.", "quantifier": "every finite list of roots over every field", "why_tests_cant": "the in-place coefficient update must be right for every length and every multiplicity pattern", "anchors": ["harold/_polynomial_ops.py::haroldpoly"]}
{"id": "C02", "title": "haroldpolyadd adds polynomials", "statement": "haroldpolyadd(p1,...,pk) evaluates, as a polynomial, to the sum of its arguments, whatever their lengths, leading zeros or number, with trim_zeros on or off; cancellation of leading terms does not misalign powers.", "quantifier": "every number of arguments, every coefficient list", "why_tests_cant": "alignment of different lengths and cancellation is a for-all-lengths statement", "anchors": ["harold/_polynomial_ops.py::haroldpolyadd"]}
{"id": "C03", "title": "haroldpolyadd output is trimmed as documented", "statement": "With trim_zeros=True the returned coefficient list has no leading zeros (docstring: 'the zeros at the front of the input and output arrays are truncated').", "quantifier": "every argument list", "why_tests_cant": "a single cancelling pair decides it; tests only use non-cancelling arguments", "anchors": ["harold/_polynomial_ops.py::haroldpolyadd"]}
{"id": "C04", "title": "haroldpolymul multiplies polynomials", "statement": "haroldpolymul(p1,...,pk) evaluates to the product of its arguments; a zero factor after the first gives [0.]; and the call never fails on polynomials.", "quantifier": "every number of arguments, every coefficient list", "why_tests_cant": "holds for every length/position of zero factors", "anchors": ["harold/_polynomial_ops.py::haroldpolymul"]}
{"id": "C05", "title": "haroldpolydiv is Euclidean division", "statement": "haroldpolydiv(dividend, divisor) returns (q, r) with dividend = q*divisor + r and deg r < deg divisor, for every divisor whose first coefficient is nonzero; both outputs have no leading zeros.", "quantifier": "every dividend and every divisor", "why_tests_cant": "division loop correctness for every pair of degrees", "anchors": ["harold/_polynomial_ops.py::haroldpolydiv"]}
{"id": "C06", "title": "haroldcompanion has the polynomial as characteristic polynomial", "statement": "det(sI - haroldcompanion(p)) is p made monic, for every p with a nonzero non-leading-zero coefficient list of degree >= 1; a constant gives an empty array; the zero polynomial is rejected with IndexError.", "quantifier": "every polynomial", "why_tests_cant": "needs the determinant of an n-by-n matrix for every n", "anchors": ["harold/_polynomial_ops.py::haroldcompanion"]}
{"id": "C07", "title": "haroldgcd divides its arguments", "statement": "haroldgcd(p1,...,pk) returns a common divisor of all its arguments; in particular constants are coprime to everything (docstring: gcd of 2 and 2s+4 is 1).", "quantifier": "every list of polynomials", "why_tests_cant": "the degree bookkeeping selects among several early exits; wrong for an infinite family", "anchors": ["harold/_polynomial_ops.py::haroldgcd"]}
{"id": "C08", "title": "haroldlcm returns the least common multiple and its multipliers", "statement": "haroldlcm(p1,...,pk) returns a monic l and multipliers m_i with m_i * (p_i made monic) = l for every i, and l divides every common multiple of the p_i.", "quantifier": "every list of nonzero polynomials, exact arithmetic", "why_tests_cant": "correctness rests on Krylov/companion theory for every degree", "anchors": ["harold/_polynomial_ops.py::haroldlcm"]}
{"id": "C09", "title": "State addition adds transfer functions", "statement": "If G + H succeeds for two State models then at every s that is a pole of neither, (G+H)(s) = G(s) + H(s), the result has the common shape and the sum of the numbers of states.", "quantifier": "every pair of well-formed State models of equal shape, every s in every field extension", "why_tests_cant": "block matrix identity for all dimensions", "anchors": ["harold/_classes.py::State.__add__"]}
{"id": "C10", "title": "State addition keeps the sampling period", "statement": "If G and H have the same sampling period then G + H has that sampling period (discrete + discrete is discrete).", "quantifier": "every pair of compatible State models", "why_tests_cant": "the drop only shows in the attribute, and only for dynamic + dynamic", "anchors": ["harold/_classes.py::State.__add__"]}
{"id": "C11", "title": "State addition terminates with a model or an exception for every operand", "statement": "G + x returns (a State or ValueError) for every State G and every scalar, array, State or Transfer gain x.", "quantifier": "every operand kind and shape", "why_tests_cant": "non-termination on a reachable operand class cannot be established by a passing run", "anchors": ["harold/_classes.py::State.__add__", "harold/_classes.py::State.__radd__"]}
{"id": "C12", "title": "State multiplication is composition", "statement": "If G @ H succeeds for State models with inputs(G)=outputs(H), then at every s that is a pole of neither, (G@H)(s) = G(s) H(s), with shape (outputs(G), inputs(H)), states n_G+n_H (static factors included), and G's sampling period.", "quantifier": "every pair of well-formed State models, every s in every field extension", "why_tests_cant": "block inverse identity for all dimensions", "anchors": ["harold/_classes.py::State.__matmul__", "harold/_classes.py::State.__mul__"]}
{"id": "C13", "title": "SISO State times a constant matrix", "statement": "For SISO State G and a real p-by-m array s, G @ s (and s @ G) has shape (p,m) and transfer matrix s*G(s) entrywise.", "quantifier": "every p, m, every array, every SISO model", "why_tests_cant": "Kronecker-structured realisation, both tall and wide branches, all sizes", "anchors": ["harold/_classes.py::State.__matmul__", "harold/_classes.py::State.__rmatmul__"]}
{"id": "C14", "title": "State scaling by scalars and matrices", "statement": "c*G, G*c, M @ G and G @ M have transfer matrices c G(s), G(s) c, M G(s), G(s) M for every real c and conforming real array M, including static-gain G.", "quantifier": "every model, scalar and array", "why_tests_cant": "all sizes and both gain/dynamic branches", "anchors": ["harold/_classes.py::State.__matmul__", "harold/_classes.py::State.__rmatmul__", "harold/_classes.py::State.__mul__", "harold/_classes.py::State.__rmul__"]}
{"id": "C15", "title": "State negation and subtraction", "statement": "(-G)(s) = -G(s); G - G evaluates to the zero matrix at every s that is not a pole of G.", "quantifier": "every State model and s", "why_tests_cant": "universal in size and in s", "anchors": ["harold/_classes.py::State.__neg__", "harold/_classes.py::State.__sub__"]}
{"id": "C16", "title": "State inversion", "statement": "1/G succeeds exactly when G is square with invertible feedthrough, and then (1/G)(s) G(s) = G(s)(1/G)(s) = I at every s that is a pole of neither.", "quantifier": "every square State model and s", "why_tests_cant": "matrix inversion lemma for all sizes", "anchors": ["harold/_classes.py::State.__rtruediv__"]}
{"id": "C17", "title": "State indexing selects a subsystem", "statement": "G[r, c] has as transfer matrix the submatrix of G(s) with the selected rows and columns and keeps the sampling period.", "quantifier": "every model and every valid index selection", "why_tests_cant": "universal over index lists", "anchors": ["harold/_classes.py::State.__getitem__"]}
{"id": "C18", "title": "Arithmetic never mixes sampling periods", "statement": "Every binary operation (+, -, *, @, feedback) between two models with different sampling periods raises ValueError.", "quantifier": "every pair of models with different sampling periods, whatever their shapes", "why_tests_cant": "must hold before any other branch is taken", "anchors": ["harold/_classes.py::State.__add__", "harold/_classes.py::State.__matmul__", "harold/_classes.py::Transfer.__add__", "harold/_classes.py::Transfer.__mul__", "harold/_bd_algebra.py::feedback"]}
{"id": "C19", "title": "State argument validation accepts exactly consistent matrices", "statement": "State(a,b,c,d) is accepted iff a is square, b has as many rows as a, c as many columns and d is outputs-by-inputs (1-D b/d given as rows are reshaped); every accepted model is shape-consistent; State(d) is a static gain.", "quantifier": "every quadruple of arrays", "why_tests_cant": "the accept/reject decision ranges over all shape combinations", "anchors": ["harold/_classes.py::State.validate_arguments", "harold/_classes.py::State.__init__"]}
{"id": "C20", "title": "State objects stay consistent under any history of assignments", "statement": "After any sequence of assignments to a, b, c, d, SamplingPeriod, DiscretizedWith, DiscretizationMatrix and PrewarpFrequency, including rejected ones, the matrices are mutually consistent, the shape never changes, a rejected assignment leaves the object unchanged, and poles are the eigenvalues of the current a.", "quantifier": "every finite sequence of property assignments with every argument", "why_tests_cant": "it is an invariant over histories", "anchors": ["harold/_classes.py::State.a", "harold/_classes.py::State.b", "harold/_classes.py::State.c", "harold/_classes.py::State.d", "harold/_classes.py::State.SamplingPeriod", "harold/_classes.py::State._recalc"]}
{"id": "C21", "title": "Stability flag follows the sampling period", "statement": "At any time the stability flag of a model is the stability of its current poles with respect to its current sampling period (docs: 'upon changing this value, relevant system properties are recalculated').", "quantifier": "every history of assignments", "why_tests_cant": "only an interleaving of a SamplingPeriod assignment with a read shows it", "anchors": ["harold/_classes.py::State.SamplingPeriod", "harold/_classes.py::Transfer.SamplingPeriod"]}
{"id": "C22", "title": "Static State models can have their feedthrough reassigned", "statement": "For a static gain G of shape (p,m), G.d = M is accepted for every p-by-m array M.", "quantifier": "every static gain and every array of its shape", "why_tests_cant": "universal accept claim", "anchors": ["harold/_classes.py::State.d", "harold/_classes.py::State.validate_arguments"]}
{"id": "C23", "title": "Transfer argument validation enforces causality", "statement": "Every Transfer model that the constructor accepts is causal: in each entry the degree of the numerator does not exceed the degree of the (nonzero) denominator; every causal pair is accepted.", "quantifier": "every argument pair in every supported form (numbers, lists, nested lists, arrays)", "why_tests_cant": "decision over all argument shapes and zero patterns", "anchors": ["harold/_classes.py::Transfer.validate_arguments"]}
{"id": "C24", "title": "Transfer gain flag agrees with the data under any history", "statement": "After any sequence of num/den/SamplingPeriod assignments the static-gain flag holds iff numerator and denominator are constants, and an assignment that raises leaves the object unchanged.", "quantifier": "every history of assignments", "why_tests_cant": "invariant over histories including failing operations", "anchors": ["harold/_classes.py::Transfer.num", "harold/_classes.py::Transfer.den", "harold/_classes.py::Transfer._recalc"]}
{"id": "C25", "title": "Transfer addition adds transfer functions", "statement": "If G + H succeeds for Transfer models of equal shape, each entry of the sum evaluates to the sum of the entries wherever both denominators are nonzero, and the sampling period is kept.", "quantifier": "every pair of Transfer models, given a correct least-common-multiple", "why_tests_cant": "polynomial identity for all degrees, with the zero-cancellation branch", "anchors": ["harold/_classes.py::Transfer.__add__", "harold/_polynomial_ops.py::haroldlcm"]}
{"id": "C26", "title": "Transfer addition broadcasts SISO models", "statement": "SISO + MIMO Transfer addition adds the SISO transfer function to every entry.", "quantifier": "every SISO and MIMO pair", "why_tests_cant": "universal over shapes", "anchors": ["harold/_classes.py::Transfer.__add__"]}
{"id": "C27", "title": "Transfer multiplication multiplies transfer functions", "statement": "If G * H succeeds for SISO Transfer models then (G*H)(s) = G(s) H(s) wherever both are defined; for G, H of equal MIMO shape it is entrywise; a SISO factor broadcasts.", "quantifier": "every pair of Transfer models including static gains", "why_tests_cant": "includes gains with arbitrary denominators", "anchors": ["harold/_classes.py::Transfer.__mul__"]}
{"id": "C28", "title": "Transfer matrix multiplication", "statement": "G @ H has entries sum_k G_ik(s) H_kj(s) wherever all entries are defined.", "quantifier": "every conforming pair", "why_tests_cant": "sum over inner dimension by induction", "anchors": ["harold/_classes.py::Transfer.__matmul__"]}
{"id": "C29", "title": "Transfer negation and inversion of SISO models", "statement": "-G evaluates to -G(s) and 1/G to 1/G(s) for SISO G with biproper dynamics; non-biproper inversion is rejected.", "quantifier": "every SISO Transfer model", "why_tests_cant": "universal in coefficients", "anchors": ["harold/_classes.py::Transfer.__neg__", "harold/_classes.py::Transfer.__rtruediv__"]}
{"id": "C30", "title": "Transfer indexing selects entries", "statement": "G[r, c] evaluates to the selected submatrix of G(s).", "quantifier": "every model and selection", "why_tests_cant": "universal over index lists", "anchors": ["harold/_classes.py::Transfer.__getitem__"]}
{"id": "C31", "title": "transfer_to_state realises the SISO transfer function", "statement": "For every causal SISO Transfer G, transfer_to_state(G) is a State model with D + C (sI-A)^-1 B = num(s)/den(s) at every s that is not a root of den; constants become static gains and the sampling period is kept.", "quantifier": "every numerator/denominator pair and every s in every field extension", "why_tests_cant": "controllable canonical form identity for every degree", "anchors": ["harold/_classes.py::transfer_to_state"]}
{"id": "C32", "title": "transfer_to_state realises MIMO transfer matrices", "statement": "The same for p-by-m Transfer models, through both the common-denominator and the least-common-multiple branch.", "quantifier": "every p, m and polynomials", "why_tests_cant": "column-wise assembly with index bookkeeping for all sizes", "anchors": ["harold/_classes.py::transfer_to_state"]}
{"id": "C33", "title": "state_to_transfer computes the transfer matrix", "statement": "Each entry of state_to_transfer(G) is num/den with den the characteristic polynomial of A and num(s)/den(s) = (D + C(sI-A)^-1B)_ij, given exact eigenvalues and transmission zeros.", "quantifier": "every State model", "why_tests_cant": "identity at one sample point must extend to all s", "anchors": ["harold/_classes.py::state_to_transfer"]}
{"id": "C34", "title": "feedback with positive sign is the positive closed loop", "statement": "feedback(G, H, negative=False) has transfer matrix (I - G H)^-1 G at every s where everything is defined; raises ValueError iff the loop is ill posed.", "quantifier": "every pair of State models, Transfers and arrays with conforming shapes", "why_tests_cant": "block inverse identity for all sizes", "anchors": ["harold/_bd_algebra.py::feedback"]}
{"id": "C35", "title": "feedback with negative sign is the negative closed loop", "statement": "feedback(G, H) (default) has transfer matrix (I + G H)^-1 G, and is rejected iff I + D_G D_H is singular.", "quantifier": "every pair of State models, Transfers and arrays with conforming shapes", "why_tests_cant": "differs from the positive case only when both feedthroughs are nonzero", "anchors": ["harold/_bd_algebra.py::feedback"]}
{"id": "C36", "title": "Discretisation by LFT substitutes the s-to-z map", "statement": "For tustin/bilinear, forward and backward Euler and lft, discretize(G, dt) satisfies Gd(z) = G(s) whenever 1/s = q22 + q21 q12/(z - q11), i.e. s=(2/dt)(z-1)/(z+1), s=(z-1)/dt, s=(z-1)/(z dt).", "quantifier": "every State model, dt > 0, every z and s in relation", "why_tests_cant": "universal identity over sizes and points", "anchors": ["harold/_discrete_funcs.py::discretize", "harold/_discrete_funcs.py::_simple_lft_connect"]}
{"id": "C37", "title": "undiscretize inverts discretize", "statement": "undiscretize(discretize(G, dt, method)) returns the matrices of G for tustin, forward and backward Euler whenever both steps succeed.", "quantifier": "every State model and dt", "why_tests_cant": "exact inverse for all sizes", "anchors": ["harold/_discrete_funcs.py::discretize", "harold/_discrete_funcs.py::undiscretize"]}
{"id": "C38", "title": "undiscretize inverts discretize with prewarping and for user LFT", "statement": "The round trip also holds for prewarped tustin with the same prewarp frequency, and for method 'lft' with the recorded matrix.", "quantifier": "every model, dt and prewarp frequency / q", "why_tests_cant": "the stored matrix and prewarp must be inverted", "anchors": ["harold/_discrete_funcs.py::undiscretize"]}
{"id": "C39", "title": "discretize of a static gain is the same gain with the sampling period", "statement": "discretize / undiscretize of a static gain return the same gain matrix with the new sampling period, for State and Transfer of every shape.", "quantifier": "every shape of gain", "why_tests_cant": "branch over shapes", "anchors": ["harold/_discrete_funcs.py::discretize", "harold/_discrete_funcs.py::undiscretize"]}
{"id": "C40", "title": "zoh discretisation is exact under balancing", "statement": "The zero-order-hold matrices do not depend on the diagonal balancing used internally: they equal the blocks of exp([[A,B],[0,0]] dt).", "quantifier": "every model, dt and balancing scaling", "why_tests_cant": "universal over scalings", "anchors": ["harold/_discrete_funcs.py::_undiscretize", "harold/_discrete_funcs.py::discretize"]}
{"id": "C41", "title": "Linear simulation follows the state recursion", "statement": "For a discrete State model simulate_linear_system(G,u,t,x0) returns y_k = C A^k x0 + sum_{j<k} C A^{k-1-j} B u_j + D u_k for every k.", "quantifier": "every model, input length, initial state", "why_tests_cant": "for all horizons, by induction", "anchors": ["harold/_time_domain.py::simulate_linear_system"]}
{"id": "C42", "title": "Simulation is linear, causal and time invariant", "statement": "Outputs superpose in (u,x0), y_k depends only on u_0..u_k, and delaying the input by one sample from rest delays the output by one sample.", "quantifier": "every model, inputs and horizon", "why_tests_cant": "universal over inputs and time", "anchors": ["harold/_time_domain.py::simulate_linear_system"]}
{"id": "C43", "title": "per_channel outputs sum to the combined output", "statement": "The sum over channels of simulate_linear_system(..., per_channel=True) equals the combined simulation from rest.", "quantifier": "every model and input", "why_tests_cant": "universal over number of channels", "anchors": ["harold/_time_domain.py::simulate_linear_system"]}
{"id": "C44", "title": "Step and impulse responses are the sums and samples of Markov parameters", "statement": "For discrete models the impulse response at k is D (k=0) or C A^(k-1) B (times 1/dt scaling used) and the step response is its running sum, per input channel.", "quantifier": "every model and horizon", "why_tests_cant": "for all horizons", "anchors": ["harold/_time_domain.py::simulate_step_response", "harold/_time_domain.py::simulate_impulse_response"]}
{"id": "C45", "title": "Frequency response of State models evaluates the transfer function", "statement": "The Hessenberg elimination used at each frequency returns c (jw I - A)^-1 b exactly when all pivots are nonzero.", "quantifier": "every order, every Hessenberg A, every s", "why_tests_cant": "elimination loop invariant for all sizes", "anchors": ["harold/_frequency_domain.py::_State_freq_resp"]}
{"id": "C46", "title": "Frequency response returns one sample per requested frequency", "statement": "frequency_response(G, w) returns len(w) samples (those below Nyquist for discrete models) of the actual gain, for static and dynamic models.", "quantifier": "every grid and model", "why_tests_cant": "branch for static gains", "anchors": ["harold/_frequency_domain.py::frequency_response"]}
{"id": "C47", "title": "Controllability and observability matrices and duality", "statement": "controllability_matrix((A,B)) = [B, AB, ..., A^(n-1)B]; observability_matrix((A,C)) stacks C A^i; the observability matrix of (A,C) is the transpose of the controllability matrix of (A',C').", "quantifier": "every n, m", "why_tests_cant": "loop over powers for all sizes", "anchors": ["harold/_kalman_ops.py::controllability_matrix", "harold/_kalman_ops.py::observability_matrix"]}
{"id": "C48", "title": "Kalman decomposition and staircase are similarity transformations", "statement": "kalman_decomposition and staircase return models with the same transfer matrix as the input (exact arithmetic, zero threshold).", "quantifier": "every model", "why_tests_cant": "universal over sizes and oracle factors", "anchors": ["harold/_kalman_ops.py::kalman_decomposition", "harold/_system_funcs.py::staircase"]}
{"id": "C49", "title": "ackermann places the poles", "statement": "For a controllable single-input pair and n desired poles, K = ackermann((A,B), loc) gives det(sI - (A - B K)) = prod (s - loc_i).", "quantifier": "every n and every controllable pair", "why_tests_cant": "Cayley-Hamilton argument for all n", "anchors": ["harold/_static_ctrl_design.py::ackermann"]}
{"id": "C50", "title": "ackermann rejects a wrong number of poles", "statement": "A list of desired poles whose length is not the number of states is rejected.", "quantifier": "every length", "why_tests_cant": "universal over lengths", "anchors": ["harold/_static_ctrl_design.py::ackermann"]}
{"id": "C51", "title": "lqr gain satisfies the optimality identity", "statement": "With X the Riccati solution, the lqr gain K makes (A-BK)'X + X(A-BK) + [I -K'] [Q S; S' R] [I; -K] = 0, and output weighting is the state weighting with Q=C'QC etc.", "quantifier": "every model and weights", "why_tests_cant": "algebraic identity for all sizes", "anchors": ["harold/_static_ctrl_design.py::lqr"]}
{"id": "C52", "title": "lqr rejects unknown weighting keywords", "statement": "Every weight_on string other than state/output (any case) is rejected, and 'OUTPUT' means output.", "quantifier": "every string", "why_tests_cant": "membership decision over all strings", "anchors": ["harold/_static_ctrl_design.py::lqr"]}
{"id": "C53", "title": "lyapunov_eq_solver solves the continuous equation", "statement": "The returned X satisfies X A + A' X + Y = 0 (and E variants) whenever the sub-solves succeed.", "quantifier": "every size and Schur block pattern", "why_tests_cant": "nested block loops with slices for all n", "anchors": ["harold/_solvers.py::lyapunov_eq_solver", "harold/_solvers.py::_solve_continuous_lyapunov"]}
{"id": "C54", "title": "lyapunov_eq_solver solves the discrete equation", "statement": "The returned X satisfies A' X A - X + Y = 0.", "quantifier": "every size and Schur block pattern", "why_tests_cant": "nested block loops with slices for all n", "anchors": ["harold/_solvers.py::lyapunov_eq_solver", "harold/_solvers.py::_solve_discrete_lyapunov"]}
{"id": "C55", "title": "matrix_slice partitions the matrix", "statement": "The four blocks returned by matrix_slice(M, (z,w), corner) reassemble to M and the named corner has shape (z,w).", "quantifier": "every matrix and corner", "why_tests_cant": "universal over shapes and corners", "anchors": ["harold/_aux_linalg.py::matrix_slice"]}
{"id": "C56", "title": "e_i returns columns of the identity", "statement": "e_i(n, idx) is the matrix whose k-th column is the idx[k]-th unit vector; output='r' gives its transpose.", "quantifier": "every n and index list", "why_tests_cant": "universal over index lists", "anchors": ["harold/_aux_linalg.py::e_i"]}
{"id": "C57", "title": "haroldker returns a null space basis", "statement": "M @ haroldker(M) = 0 and the columns are orthonormal and as many as the nullity.", "quantifier": "every M and every singular value decomposition", "why_tests_cant": "depends on which orthogonal factor is sliced", "anchors": ["harold/_aux_linalg.py::haroldker", "harold/_aux_linalg.py::haroldsvd"]}
{"id": "C58", "title": "pair_complex_numbers returns conjugate pairs", "statement": "For every list closed under conjugation the result is a permutation of it with reals first (ascending) followed by adjacent conjugate pairs, negative imaginary part first.", "quantifier": "every conjugation-closed list", "why_tests_cant": "index bookkeeping over repeated real parts of any multiplicity", "anchors": ["harold/_aux_linalg.py::pair_complex_numbers"]}
{"id": "C59", "title": "concatenate_state_matrices and matrix_slice are inverse", "statement": "matrix_slice(concatenate_state_matrices(G), (n,n)) returns (a,b,c,d).", "quantifier": "every State model", "why_tests_cant": "universal over sizes", "anchors": ["harold/_classes.py::concatenate_state_matrices", "harold/_aux_linalg.py::matrix_slice"]}
{"id": "C60", "title": "Random stable models are stable", "statement": "random_state_model(n, p, m, stable=True) returns an n-state model whose poles all have negative real part (continuous), for every outcome of the random generator.", "quantifier": "every n and every random outcome", "why_tests_cant": "probability-zero and rare outcomes are never sampled", "anchors": ["harold/_classes.py::random_state_model"]}
{"id": "C61", "title": "Steady-state gain of Transfer models", "statement": "G.dcgain entries are the limit of num/den at the steady-state point after removing common integrators (inf when a pole remains).", "quantifier": "every entry polynomial pair", "why_tests_cant": "loop over common trailing zeros of any multiplicity", "anchors": ["harold/_classes.py::Transfer.dcgain"]}
{"id": "C62", "title": "minimal_realization of a State model: same transfer matrix, no more states, minimal", "statement": "minimal_realization(G) terminates, has at most as many states as G and the sampling period of G. When the numerical decisions it takes are exact it has the transfer matrix of G and is controllable and observable.", "quantifier": "every State model of any size; the first sentence for every outcome of the numerical routines", "why_tests_cant": "loop termination for all oracle outcomes", "anchors": ["harold/_system_funcs.py::minimal_realization", "harold/_system_funcs.py::_minimal_realization_state", "harold/_system_funcs.py::cancellation_distance", "harold/_system_funcs.py::staircase"]}
{"id": "C63", "title": "Pole-zero cancellation preserves the rational function", "statement": "For a dynamic Transfer model of any shape whose numerators are listed from a nonzero leading coefficient (or are the single coefficient 0), when a zero and a pole are within the tolerance only if they are equal, minimal_realization returns a Transfer of the same shape and sampling period in which every entry is the same rational function as before, has a monic denominator dividing the old one and the same relative degree, and shares no factor between numerator and denominator (unless the numerator is 0).", "quantifier": "every shape, every pair of polynomials and multiplicity pattern of real and complex roots, given the exact roots", "why_tests_cant": "matching loop over all multiplicity patterns", "anchors": ["harold/_system_funcs.py::_minimal_realization_simplify"]}
{"id": "C64", "title": "hessenberg_realization preserves the transfer function", "statement": "hessenberg_realization(G) has the transfer matrix of G.", "quantifier": "every model", "why_tests_cant": "universal over feedthrough and input count", "anchors": ["harold/_system_funcs.py::hessenberg_realization"]}
{"id": "C65", "title": "Controllability indices add up to the controllable dimension", "statement": "For exact rank decisions: the vectors A^k b_j with k below the j-th index are a basis of the span of [B, AB, ..., A^(n-1)B]; the indices cut off at K add up to rank [B, ..., A^(K-1)B] for every K, so their sum is the controllable dimension and equals n exactly for controllable pairs; up to order they are invariant under changes of state and input coordinates and under state feedback. Non-square A and mismatched rows are rejected.", "quantifier": "every pair (A,B), every admissible pivoted QR and tolerance", "why_tests_cant": "Arnoldi loop for all sizes", "anchors": ["harold/_system_props.py::controllability_indices"]}
{"id": "C66", "title": "H2 norm of discrete models with feedthrough", "statement": "For a stable discrete model system_norm(G, 2)^2 = trace(C X C' + D D') with X the controllability gramian, also when D != 0.", "quantifier": "every stable discrete model", "why_tests_cant": "branch order matters for every D != 0", "anchors": ["harold/_system_props.py::system_norm"]}
{"id": "C67", "title": "Adding two Transfer models of equal shape succeeds", "statement": "For two Transfer models of the same shape and sampling period G + H returns a model (it does not raise).", "quantifier": "every pair of Transfer models of equal shape and sampling period", "why_tests_cant": "depends on cancellations between arbitrary numerators", "anchors": ["harold/_classes.py::Transfer.__add__", "harold/_classes.py::Transfer.validate_arguments"]}
{"id": "C68", "title": "Time arrays must be equally spaced", "statement": "simulate_linear_system raises for a time array that is not increasing and equally spaced, or whose spacing differs from the sampling period of a discrete model.", "quantifier": "every model, input and time array", "why_tests_cant": "a tolerance hole shows only at particular magnitudes; the claim is about every time array", "anchors": ["harold/_time_domain.py::_check_u_and_t_for_simulation", "harold/_time_domain.py::simulate_linear_system"]}
{"id": "C69", "title": "Kalman decomposition isolates the uncontrollable and unobservable modes", "statement": "After kalman_decomposition the states beyond the rank r of the controllability matrix are not driven by the input (zero rows of B, zero lower-left block of A), the first r states alone have the transfer matrix of the model, and the unobservable states get zero columns in C.", "quantifier": "every dynamic model, every exact svd", "why_tests_cant": "structure for every size and every admissible svd", "anchors": ["harold/_kalman_ops.py::kalman_decomposition"]}
{"id": "C70", "title": "State -> Transfer -> State round trip", "statement": "For a strictly proper State model G, transfer_to_state(state_to_transfer(G)) succeeds and returns a State model of the same shape and sampling period whose transfer matrix equals that of G at every s that is not an eigenvalue of A.", "quantifier": "every strictly proper State model of any shape and any number of states", "why_tests_cant": "two conversion algorithms with several branches must compose to the identity on transfer matrices for all sizes and all s", "anchors": ["harold/_classes.py::state_to_transfer", "harold/_classes.py::transfer_to_state"]}
{"id": "C71", "title": "H-infinity norm", "statement": "For a stable State model, continuous or discrete, the number returned by system_norm(G, inf) is within the documented relative tolerance of the peak gain: it is l(1+e) where l is a gain that is attained at some frequency (or the norm of D), and no frequency has a gain of l(1+2e) or more. Unstable models, and only they, give inf; static gains give the norm of the matrix.", "quantifier": "every stable model of any size, every frequency, every exact eigenvalue routine", "why_tests_cant": "an upper bound over all real frequencies cannot be sampled", "anchors": ["harold/_system_props.py::system_norm"]}
{"id": "C72", "title": "staircase separates the reachable and the unreachable states", "statement": "For exact rank decisions, staircase(A, B, C, 'c') returns Ah, Bh in which some k states come first (last with invert=True), are a controllable pair, and are not influencing the others, which the input does not reach either; k equals the number of states exactly when (A, B) is controllable. Form 'o' does the same for observability.", "quantifier": "every A, B, C of any shape and every exact svd", "why_tests_cant": "the number of passes and the block sizes depend on the data; the claim is a rank condition on all powers of A", "anchors": ["harold/_system_funcs.py::staircase"]}
{"id": "C73", "title": "Controllability indices test columns from left to right", "statement": "controllability_indices assigns the indices by testing the columns of [B, AB, ...] from left to right, as documented: a column of B that does not depend on those to its left has a positive index.", "quantifier": "every pair (A,B)", "why_tests_cant": "depends on the pivoting of every B", "anchors": ["harold/_system_props.py::controllability_indices"]}
{"id": "C74", "title": "Pole-zero cancellation outside the regular case", "statement": "minimal_realization of a Transfer also keeps value and sampling period of static gains of any shape, of numerators stored with leading zeros, of zero numerators (which it reduces to 0/1), and of complex zero pairs close to a single real pole.", "quantifier": "every static gain, every numerator with leading zeros, every denominator under a zero numerator, every tolerance below one", "why_tests_cant": "needs every shape, coefficient list and tolerance", "anchors": ["harold/_system_funcs.py::minimal_realization", "harold/_system_funcs.py::_minimal_realization_simplify"]}
{"id": "C75", "title": "The Kalman tests answer reachability and observability", "statement": "is_kalman_controllable returns True exactly if every state of x(k+1) = A x(k) + B u(k) can be reached from rest by some finite input sequence; n steps are then enough, and there is no left eigenvector of A orthogonal to B. is_kalman_observable returns True exactly if any two different initial states produce different zero-input output sequences. Both hold for State models and for tuples of matrices, provided the singular value decomposition is exact on the controllability (observability) matrix and its singular values are zero or above the rank tolerance.", "quantifier": "all matrices A, B, C of compatible shapes with at least one state, input and output, all target states, input sequences of any length and initial states", "why_tests_cant": "reachability quantifies over all target states and over all input sequences of unbounded length", "anchors": ["harold/_kalman_ops.py: is_kalman_controllable", "harold/_kalman_ops.py: is_kalman_observable", "harold/_kalman_ops.py: controllability_matrix", "harold/_kalman_ops.py: observability_matrix"]}
{"id": "C76", "title": "The low-frequency gain of a State model is the value of its transfer matrix at s = 0 or z = 1", "statement": "G.dcgain of a State model returns, in every entry, the value at s = 0 (continuous) or z = 1 (discrete) of the corresponding entry of D + C (sI - A)^-1 B after cancellation of common factors, and inf where that entry has a pole; values further than 1/eps from D may be reported as inf. A static gain returns its matrix. It holds whatever uncontrollable or unobservable modes the realization carries.", "quantifier": "all State models of any order and shape, all entries, and all numerically exact results of the external routines", "why_tests_cant": "the claim ranges over all realizations of all transfer matrices, in particular over those with hidden integrators; tests check single numbers", "anchors": ["harold/_system_funcs.py: dcgain", "harold/_system_funcs.py: _minimal_realization_state"]}
{"id": "C77", "title": "transmission_zeros returns exactly the invariant zeros of a model", "statement": "transmission_zeros(A, B, C, D) returns exactly the points s at which the system matrix [A - sI, B; C, D] loses rank below its normal rank, for every model whose system matrix has full normal column rank, and for every other model whose reduced pencil is regular. For square models with invertible transfer matrix they are the roots of det [A - sI, B; C, D], with multiplicity, and for a single-input single-output model those of the numerator. A model with B = 0 or C = 0 has no zeros reported. state_to_transfer, which uses these zeros, then returns the transfer matrix of the model.", "quantifier": "all matrices A, B, C, D of compatible shapes of any size, all complex points s, all numerically exact results of the singular value and generalized eigenvalue routines", "why_tests_cant": "the claim compares a list with all complex points and ranges over every sequence of compressions the reduction can take; tests compare single lists of numbers", "anchors": ["harold/_classes.py: transmission_zeros", "harold/_classes.py: _tzeros_reduce", "harold/_classes.py: state_to_transfer"]}
{"id": "C78", "title": "The automatic time grid shows every mode that matters", "statement": "simulate_step_response(G) and simulate_impulse_response(G) without a time array succeed for every model, on a grid that starts at 0 with constant increment. For continuous models the grid has 100 to 10001 intervals, is long enough for every non-negligible mode to decay to one percent (or to run through five periods if it is undamped), and has at least 25 points per period and 50 per decay time constant unless it has 10000 points. For discrete models the increment is the sampling period, there are at most 75001 samples, and the grid is long enough for every pole inside the unit circle to decay. False of the code for discrete models: a pole at -1 and models whose unstable poles are all negative raise ValueError; real poles in (0, 1) are taken for integrators, so that the horizon is 25 time units whatever they are, and with a sampling period above 25 both functions raise.", "quantifier": "all State models, all eigenvalues, eigenvector norms and sensitivities, both response types, all results of floor, abs and log that meet their contracts", "why_tests_cant": "the horizon and the spacing are maxima and minima over classes of poles with thresholds; every combination of classes and every ordering of the poles must be covered", "anchors": ["harold/_time_domain.py: _compute_tfinal_and_dt", "harold/_time_domain.py: simulate_step_response", "harold/_time_domain.py: simulate_impulse_response"]}
{"id": "C79", "title": "The automatic frequency grid surrounds every mode and hits none", "statement": "frequency_response(G) without frequencies uses an increasing grid of positive frequencies, at most 99.5 percent of the Nyquist frequency for discrete models, that contains no frequency at which jw (or exp(jw dt)) is a pole or a zero of a channel, so that no sample of a Transfer is nan or inf. The grid keeps a distance from the frequency of every undamped pole and zero and contains the peak frequency of every damped one. For continuous models with poles and zeros of ordinary size it extends at least one decade below and above each of them. It exists for every discrete model. False of the code: for continuous models all of whose nonzero poles and zeros are below about 1e-19, ValueError is raised.", "quantifier": "all State and Transfer models, all lists of poles and zeros, all numbers of samples, all results of log10, 10**x, floor, abs, log, sqrt, geomspace and unique that meet their contracts", "why_tests_cant": "whether a grid point coincides with a pole depends on the exact values of all poles; the end points are extremes over all channels", "anchors": ["harold/_frequency_domain.py: _get_freq_grid", "harold/_frequency_domain.py: _loglog_points_around", "harold/_frequency_domain.py: frequency_response"]}
{"id": "C80", "title": "pole_properties gives the natural frequency and damping ratio of every pole", "statement": "pole_properties() is None exactly for models without poles, and has otherwise one row per pole, in order, with the pole itself first. For a pole with location s in the s-plane (s itself, or the s in the Nyquist strip with exp(s dt) equal to the pole) that is not an integrator, the row holds the frequency w = |s| > 0 and the damping ratio d with Re s = -d w, -1 <= d <= 1; d is positive exactly when the pole is stable; complex conjugate poles have the same frequency and damping ratio. Integrators have frequency 0 and damping NaN. False of the code: a discrete pole at 0 has infinite frequency and damping NaN too, although it is stable.", "quantifier": "all lists of poles, all sampling periods", "why_tests_cant": "the relation between the discrete pole, its location and the damping ratio must hold for every pole", "anchors": ["harold/_classes.py: _pole_properties", "harold/_classes.py: State.pole_properties", "harold/_classes.py: Transfer.pole_properties"]}
{"id": "C81", "title": "Bode and Nyquist plots show the transfer function of every system", "statement": "bode_plot of a list of systems that is not longer than the style draws for every system and every channel (row, col) a magnitude curve in axes (2 row, col) and a phase curve in axes (2 row + 1, col), and nothing else. On given frequencies the abscissae are these frequencies (below the Nyquist frequency of a discrete system), the k-th magnitude is scale log10 |G(jw_k)| and the k-th phase is the angle of G(jw_k) up to full turns, with steps of at most half a turn if all samples are nonzero numbers. nyquist_plot draws (Re, Im) of every sample, its mirror image and the point -1. The common grid of several systems is padded to the smallest and largest frequency. False of the code: systems beyond the length of the style are not drawn; without frequencies all systems are drawn on the grid of the first one; a grid padded on both sides loses the lower padding; a static gain cannot be drawn on a grid of other than two frequencies; the phase of zero or missing samples is uninitialised memory.", "quantifier": "all lists of State and Transfer models of all sizes, all lists of frequencies, both units, all styles, all results of unwrap, log10, abs and angle that meet their contracts", "why_tests_cant": "plots are not compared in unit tests at all, and the claims range over all lists of systems and all frequencies", "anchors": ["harold/_frequency_domain_plots.py: bode_plot", "harold/_frequency_domain_plots.py: nyquist_plot", "harold/_frequency_domain_plots.py: _get_common_freq_grid"]}
{"id": "C82", "title": "Simulating a discrete Transfer solves its difference equations", "statement": "For a discrete Transfer G with entries num_ij/den_ij, simulate_linear_system(G, u) returns outputs such that the channel from input j to output i satisfies den_0 y(k) + den_1 y(k-1) + ... = b_0 u(k) + b_1 u(k-1) + ... for every sample k, where the signals are zero before time 0; this equation has exactly one solution. Without per_channel the output is the sum of the solutions over all inputs. simulate_step_response and simulate_impulse_response are the solutions for u = 1 and for u = 1/dt at time 0 and zero afterwards. A Transfer cannot be given an initial state. A continuous Transfer is simulated as a State model with the same transfer function.", "quantifier": "all causal Transfer models of every size and degree that can be converted, all inputs, all numbers of samples above one", "why_tests_cant": "the equation must hold for every model, every degree and every sample; the simulation runs on a realisation (companion form, least common multiples) that has nothing in common with the coefficients of the entries", "anchors": ["harold/_time_domain.py: simulate_linear_system", "harold/_time_domain.py: simulate_step_response", "harold/_time_domain.py: simulate_impulse_response", "harold/_classes.py: transfer_to_state"]}
{"id": "C83", "title": "Step and impulse response plots show the responses of every system", "statement": "step_response_plot and impulse_response_plot of a list of systems draw for every system, every output row and every input column exactly one curve, in the axes (row, col), with stairs for discrete and straight lines for continuous systems, whose points are the simulated times and the response from that input to that output; for discrete systems this is the running sum of the Markov parameters (the Markov parameters over the sampling period for the impulse) or the solution of the difference equation of the entry. The time axis ends with the shortest simulation. The i-th system is drawn with the i-th entry of the style. False of the code: step_response_plot drops the systems beyond the length of the style, and impulse_response_plot ignores the style.", "quantifier": "all nonempty lists of State and Transfer models of all sizes, all time arguments for which the simulation succeeds, all styles", "why_tests_cant": "plots are not compared in unit tests, and the claim ranges over all lists, sizes and time grids", "anchors": ["harold/_time_domain_plots.py: step_response_plot", "harold/_time_domain_plots.py: impulse_response_plot", "harold/_time_domain_plots.py: _check_sys_args"]}
{"id": "C84", "title": "Discretising a Transfer model substitutes the variable in its transfer matrix, and undiscretize undoes it", "statement": "discretize of a continuous dynamic Transfer model gives a Transfer model of the same size, with the requested sampling period and the recorded method, whose value at z is the value of the original at 2/dt (z-1)/(z+1) for tustin (with the prewarped factor if a frequency is given), (z-1)/dt for forward, (z-1)/(z dt) for backward differences and at the point of the interconnection with q for lft; for zoh and foh it is the transfer matrix of the sampled State model. undiscretize makes the inverse substitution, and after tustin, forward or backward gives back the same rational functions. Unknown methods, discrete models for discretize and continuous ones for undiscretize are refused. Static gains keep their value. False of the code: static gains with one row or one column cannot be discretised, and no static gain can be undiscretised.", "quantifier": "all well-formed Transfer models of all sizes and degrees that are convertible to State models, all sampling periods, methods, prewarping frequencies and q, all evaluation points in all fields over the reals", "why_tests_cant": "tests compare a few systems with stored coefficients; the claim is an identity of rational functions for all systems, sampling periods and methods", "anchors": ["harold/_discrete_funcs.py: discretize", "harold/_discrete_funcs.py: undiscretize", "harold/_discrete_funcs.py: _discretize", "harold/_discrete_funcs.py: _undiscretize", "harold/_classes.py: Transfer"]}
{"id": "C85", "title": "The norm of a Transfer model is that of its transfer matrix", "statement": "system_norm(G, inf) of a continuous Transfer without poles on the imaginary axis returns l (1 + sqrt(eps)), where l is the largest gain of G at some real frequency or at infinity, and no gain at any frequency reaches l (1 + 2 sqrt(eps)). system_norm(G, 2) of a stable discrete Transfer that vanishes at infinity is the square root of the energy of the impulse responses, the solutions of the difference equations of the entries; of a continuous one it is given by the gramian of a realisation. The results are inf exactly for unstable models and, for p = 2, models with feedthrough; other p are refused. False of the code: static gains raise instead of returning the norm of the matrix.", "quantifier": "all Transfer models of all sizes and degrees that are convertible to State models, all tolerances, all frequencies", "why_tests_cant": "the H-infinity norm is a supremum over all frequencies and the 2-norm a limit; tests compare a few numbers", "anchors": ["harold/_system_props.py: system_norm", "harold/_classes.py: transfer_to_state"]}
{"id": "C86", "title": "cancellation_distance brackets the distance to an uncontrollable pair", "statement": "cancellation_distance(F, G) returns upper2, upper1, lower0, e_f, radius. Some perturbation [dF | dG] of norm upper2 makes [F+dF-e_f I | G+dG] rank deficient and no perturbation of smaller norm does; upper1 is at least upper2, and is the least of the ratios over the computed eigenvectors; wherever a perturbation of norm at most upper2 makes the pencil rank deficient, the point is within radius of a computed eigenvalue; no perturbation of norm below lower0 makes the pencil rank deficient anywhere, provided e_f is the computed eigenvalue at which the pencil is nearest to losing rank. When the computed eigenvalues are distinct, upper2 is zero exactly for the pairs that lose rank at some point. False of the code: without the proviso lower0 can be positive for a pair that is already uncontrollable. Arrays of the wrong shape raise ValueError.", "quantifier": "all F and G of all sizes, all outcomes of the random columns for which eig returns a basis, all perturbations, all points of the complex plane", "why_tests_cant": "the bounds speak of all perturbations and all points of the plane, and the result depends on random numbers", "anchors": ["harold/_system_funcs.py: cancellation_distance"]}
{"id": "C87", "title": "Sums and products of a State and a Transfer", "statement": "G + H and H + G of a State G and a Transfer H of the same shape have the sum of the two as transfer matrix; for dynamic models a SISO one is added to every entry of the other. The result is a State, except that a static gain State plus a dynamic Transfer is a Transfer. The sum of dynamic models exists when the sampling periods are equal and the shapes agree or one is SISO. G @ H and G * H are the product in the order written, with the sampling period of the factors, a SISO factor multiplying every entry of the other. H * G and, for SISO H, H @ G are right when one factor is SISO. Models of different sampling periods raise ValueError. False of the code: H * G of matrices is computed in the other order, H @ G of a MIMO Transfer always raises ValueError, the sum of dynamic models loses the sampling period, and a matrix gain State @ a discrete-time dynamic Transfer raises.", "quantifier": "all State models, all Transfer models that transfer_to_state converts exactly, all points of all fields at which both are defined", "why_tests_cant": "the transfer matrix of the result must be right at every point for models of every size and order", "anchors": ["harold/_classes.py: Transfer.__add__, Transfer.__mul__, Transfer.__matmul__, State.__add__, State.__mul__, State.__matmul__"]}
