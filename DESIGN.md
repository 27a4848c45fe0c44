# Formal model of ilayn/harold in Rocq (Coq 8.16.1)

## 1. How the model is built

* **Language.** Gallina over mathcomp (ssreflect + algebra).  Model files
  (`theories/Model*.v`) contain only computable definitions, each with a comment
  citing the file and lines of `/repo` it models.  Proof files
  (`theories/*Theory.v`, `theories/*Proofs.v`) contain lemmas.  `theories/Spec.v`
  contains the small independent specification.  `theories/Props*.v` contain the
  property theorems (`Theorem … exact …. Qed. Print Assumptions …`) with
  `Example`s that exhibit non-trivial cases meeting the hypotheses.
* **Numbers.** Python floats are modelled by an arbitrary field (`fieldType`) or, where
  the code compares magnitudes, an arbitrary ordered field (`realFieldType`).
  All arithmetic is therefore exact: rounding, overflow, NaN and inf are **not** modelled.
* **Arrays.** A numpy 2-D array is a record with a run-time shape and the rows
  as lists (`arr`); operations check shapes at run time and raise, as numpy does.
  A polynomial (1-D array) is a list, highest power first.
* **Exceptions** are values: `res A := Ok a | Err e`.
* **External numerics** (eigvals, svd, schur, expm, qr, Riccati solvers, random
  numbers) are explicit function arguments; what a theorem needs from them is an explicit
  hypothesis of that theorem.  `solve` is modelled exactly (adjugate formula; raises
  `LinAlgError` on singular matrices).  tan, sqrt and pi are arguments as well.
* **Semantics used in the statements.** A State model (a,b,c,d) means
  s |-> D + C (sI-A)^-1 B, for s in *any* extension field `L` of the coefficient field
  (`f : {rmorphism F -> L}`), so that one statement covers real, complex and indeterminate s.
  A Transfer entry means num(s)/den(s).

## 2. Properties: what is modelled and how it is proved

| id | model | proof |
|----|-------|-------|
| C01 | `haroldpoly` loop over the coefficient array | loop invariant by induction on the root list |
| C02, C03 | `haroldpolyadd` alignment loop | polynomial identity on `{poly F}`; C03 refuted by a cancelling pair |
| C04 | `haroldpolymul` fold of convolutions | `{poly F}` product; the leading-zero-factor failure is proved as refutation |
| C05 | `haroldpolydiv` + `scipy.signal.deconvolve` | long-division invariant |
| C06 | `haroldcompanion` | determinant by expansion, induction on degree |
| C07 | `haroldgcd` early exits | refuted with the docstring's own example |
| C08 | `haroldlcm` | Krylov/minimal polynomial argument, given rank oracle in exact arithmetic |
| C09-C18 | `State` operators with dynamic shapes | block matrix algebra; recursion modelled with fuel for C11 |
| C19-C22 | `State.validate_arguments`, setters as a step function | case analysis; invariant by induction over operation lists |
| C23, C24 | `Transfer.validate_arguments`, setters | case analysis; refutations with witnesses |
| C25-C30 | `Transfer` operators, lcm as an argument with its contract | `{poly F}` / evaluation identities |
| C31-C33 | `transfer_to_state`, `state_to_transfer` | canonical-form identity; polynomial interpolation at one point |
| C34, C35 | `feedback`, any mix of State, Transfer and array operands | block inverse; negative sign refuted, partial when N D = 0; Transfer operands by C31-C33 around the State loop |
| C36-C40 | `discretize`, `undiscretize`, `_simple_lft_connect` | push-through identities |
| C41-C44 | `simulate_linear_system` loop, step/impulse inputs | induction over time |
| C45, C46 | `_State_freq_resp` elimination loop, `frequency_response` branches | loop invariant |
| C47, C48 | Kalman matrices, decomposition, staircase | induction; similarity invariance |
| C49-C52 | `ackermann`, `lqr` | Cayley-Hamilton / companion similarity; algebra |
| C53, C54 | Lyapunov block loops | block forward-substitution invariant |
| C55-C59 | auxiliary array functions | direct |
| C60 | `random_state_model` with the random outcomes as an argument | induction over the walk |
| C61 | `Transfer.dcgain` loop | induction |
| C62 | `_minimal_realization_state`, `minimal_realization` for State models (`ModelMin.v`) | measure for the loop; PBH-type argument for the removed states; refutations |
| C63, C74 | `_minimal_realization_simplify`, `minimal_realization` for Transfer models (`ModelMinT.v`), complex numbers `Cplx.v` | loop invariant on the multisets of poles and zeros, closed under conjugation; refutations |
| C64 | `hessenberg_realization` | explicit form of the result in all cases; refutations |
| C65, C73 | `controllability_indices` (`ModelCi.v`) | Krylov chains: the kept columns are a basis; invariance under feedback; refutation of the documented order |
| C66, C71 | `system_norm` branches p=2 and p=inf (`ModelNorm.v`) | energy identity from the Lyapunov equation; Hamiltonian eigenvalues <-> singular values of G(iw); the bound for any number of inputs and outputs by Sylvester's criterion and the first root of the leading minors (`PdTheory.v`, `NormMimo.v`) |
| C67 | `Transfer.__add__` | refutation (cancelling leading coefficients) |
| C68 | `_check_custom_time_input` | exact acceptance condition; refutation |
| C69 | `kalman_decomposition` | block structure from the svd contract; refutation of the observable half |
| C70 | `state_to_transfer` then `transfer_to_state` | composition of C33 and C31/C32 |
| C72 | `staircase` | induction over the passes, block Hessenberg form |
| C75 | `is_kalman_controllable`, `is_kalman_observable` | reachability by input sequences <-> rank of the Krylov matrix (Cayley-Hamilton) |
| C76 | `State.dcgain` (`ModelDcS.v`) | minimal realizations have no hidden pole; value of a rational function at the low frequency; refutations |
| C77 | `transmission_zeros`, `_tzeros_reduce` (`ModelTz.v`) | rank and determinant of the system pencil under each compression; induction over the reduction loop; final pencil; refutations |
| C78 | `_compute_tfinal_and_dt` (`ModelHorizon.v`) | maxima and minima over the pole classes; np.arange by the floor contract; refutations for discrete models |
| C79 | `_get_freq_grid`, `_loglog_points_around`, `frequency_response(G)` (`ModelGrid.v`) | membership in the merged grid; order facts from the contracts of log10, 10**x and floor; every mode is mapped to the s-plane frequency the code computes |
| C80 | `pole_properties`, `_pole_properties` (`ModelPoleProps.v`) | case analysis on the row; location of a discrete pole in the s-plane from the contracts of exp and log |
| C81 | `bode_plot`, `nyquist_plot`, `_get_common_freq_grid`: the list of curves (`ModelPlots.v`) | the loop over systems and channels by induction on the list; values from C45/C46; the contract of `np.unwrap` is an explicit argument |
| C82 | `simulate_linear_system`, `simulate_step_response`, `simulate_impulse_response` of Transfer models (`ModelSimT.v`), on top of the conversion (C31, C32) and the State simulation (C41) | the two transfer functions agree as fractions of polynomials (`DiffConvert.v`); polynomials act on signals as shift operators and Cayley-Hamilton turns the identity into the difference equation (`DiffTheory.v`) |
| C83 | `step_response_plot`, `impulse_response_plot`: the list of curves and the right end of the axis (`ModelTimePlots.v`) | the loop over the systems by induction; values from C44 and C82 |
| C84 | `discretize`, `undiscretize` of Transfer models: conversion to a State model, the formulas of C36-C40, conversion back, the recorded method (`ModelDiscT.v`) | the conversions (C29, C30, C79) around the push-through identities; round trips: rational functions equal at all but finitely many points of the field of fractions are equal |
| C85 | `system_norm` of Transfer models (`system_norm_t` in `ModelNorm.v`): conversion, then C66 and C71 | the converted model has the transfer matrix of the Transfer on the imaginary axis and at infinity, and its Markov parameters solve the difference equations of the entries (C82) |
| C86 | `cancellation_distance` (`ModelCancel.v`): the pencil, the bordered square matrix, upp0, the choice of the eigenvalue, the five results; qr of random numbers, eig, cond and svdvals are arguments | rank-one perturbation and Cauchy-Schwarz for upper2; the eigenvector equation for upper1; Bauer-Fike for radius and, in part, lower0; a counterexample for lower0 |
| C87 | `+`, `*` and `@` between a State and a Transfer (`ModelMixed.v`) | the conversion theorem of transfer_to_state and the State sums and products of C09-C13; counterexamples for Transfer * State and Transfer @ State |

## 3. Trusted base

* Coq's kernel (8.16.1) and the kernel's reduction machines, including `vm_compute` for the `Example`s.
* `Print Assumptions` follows each property theorem in `Props*.v` and prints
  "Closed under the global context" for **every** one of them: no axiom at all is used, neither
  classical logic nor functional extensionality.  `coqchk -o` / the checker additionally lists 38
  "axioms" of `mathcomp` and `Coq.ssr`: these are the opaque fields of sealed modules of the library
  (`Imset.imsetE`, `BigOp.bigopE`, ...), which are defined and proved in the library itself, in a module
  sealed by a signature; none of them appears in `Print Assumptions`.
* No `Admitted`, `Axiom`, `Parameter`, section-less `Variable`, functor, module type, plugin or disabled check
  is used.  `RingTac.v` is a reflexive ring tactic in Ltac on top of `Coq.setoid_ring.Ring_polynom`, proved
  sound in the file.
* The faithfulness of the model to the cited lines, and the numpy/scipy behaviour written into the model
  (shapes, broadcasting, slices, which exception is raised).

## 4. What is modelled and what is not

Modelled, function by function (each definition cites its lines):

| source | model |
|--------|-------|
| `_polynomial_ops.py` (all functions) | `ModelPoly.v` |
| `_classes.py` State: constructor, validation, operators, indexing | `ModelState.v` |
| `_classes.py` Transfer: constructor, validation, operators, indexing, `transfer_to_state` | `ModelTransfer.v` |
| `_classes.py` attribute assignment, derived attributes | `ModelObject.v` |
| `_classes.py` `state_to_transfer` | `ModelConvert.v` |
| `_classes.py` `transmission_zeros`, `_tzeros_reduce` | `ModelTz.v` |
| `_classes.py` `Transfer.dcgain`, `_system_funcs.py` `State.dcgain` | `ModelDc.v`, `ModelDcS.v` |
| `_classes.py` `random_state_model`, `concatenate_state_matrices`, `_state_or_abcd` | `ModelRandom.v`, `ModelState.v`, `ModelKalman.v` |
| `_aux_linalg.py` | `ModelAux.v`, `ModelPair.v` |
| `_bd_algebra.py` `feedback` | `ModelFeedback.v` (State models and arrays), `ModelFeedbackT.v` (any operands, conversion back) |
| `_discrete_funcs.py` | `ModelDiscrete.v`, `ModelDiscT.v` |
| `_frequency_domain.py` for given frequencies; the automatic grid | `ModelFreq.v`; `ModelGrid.v` |
| `_kalman_ops.py` | `ModelKalman.v` |
| `_solvers.py` (four Lyapunov/Stein solvers) | `ModelLyap.v` |
| `_static_ctrl_design.py` `ackermann`, `lqr` | `ModelCtrl.v` |
| `_system_funcs.py` staircase, Hessenberg and minimal realisations | `ModelMin.v`, `ModelMinT.v`, `ModelFreq.v` |
| `_system_funcs.py` `cancellation_distance` | `ModelCancel.v` |
| `_classes.py` operators between a State and a Transfer | `ModelMixed.v` |
| `_system_props.py` | `ModelNorm.v`, `ModelCi.v` |
| `_time_domain.py` | `ModelSim.v`, `ModelHorizon.v` |

Not modelled: the appearance of all plots (`*_plots.py`; the data they show is C81 and C83), printing (`__repr__`), the
numerics inside `cancellation_distance` (qr of random numbers, eig, cond, svdvals: arguments in `ModelCancel.v`; for `minimal_realization` the whole function is still an argument), warnings, non-numeric arguments,
`place_poles` (always raises), float rounding, NaN and infinity (except where a model says so).

## 5. Findings

Properties a user would rely on that are **false of the code**.  Each has a theorem (name in brackets) unless it says
"not proved".  Line numbers are those of the cited file in `/repo/harold`.

1. State + State of two dynamic models drops the sampling period, `_classes.py` 1982 [C10].
2. SISO dynamic State + 1x1 array recurses for ever, 2082-2087 [C11].
3. Transfer SISO + MIMO uses attributes that do not exist, 529-535 [C26].
4. Transfer @ State tests the class instead of the object, 900; Transfer * State computes the product in the other order, 697; State + Transfer loses the sampling period [C87].
5. SISO gain Transfer * G ignores the denominator of the gain, 708 [C27]; its frequency response too, and it always has two samples [C46].
6. gain State * scalar raises TypeError, 2303 [C14]; array @ discrete Transfer raises, 959 [C28].
7. feedback uses I - D_H D_G for both signs, `_bd_algebra.py` 78 [C35]; static loops with a zero gain raise UnboundLocalError [C34]; static Transfer loops that are a row or a column are computed and then refused (line 92) [C34_static_vector_refuted].
8. undiscretize of a static gain raises [C39]; prewarping is not undone, and the recorded q is applied instead of its inverse [C38]; 'trapezoidal' is refused [C36].
9. Transfer validation accepts noncausal arrays with leading zeros in the denominator and refuses causal ones, 1569 [C23].
10. Assigning SamplingPeriod does not recompute stability [C21]; assigning num/den does not update the gain flag [C24]; the d of a static gain cannot be assigned [C22].
11. minimal_realization: drops the sampling period of gains, tests observability with (A,B), 416, raises on fully uncontrollable models, returns wrong models for square C of full rank [C62, C74]; TypeError at 514, numerators with leading zeros become 0, zero numerators are not reduced [C74].
12. hessenberg_realization drops D, 211, and does not transform B for several inputs [C64].
13. staircase form 'o' returns B and C exchanged when C has full column rank, 98 [C48].
14. haroldker returns columns of V instead of its transpose [C57]; compressed controllability matrix uses the wrong factor [C47]; the observable half of kalman_decomposition is wrong [C69].
15. matrix_slice corner 'ne' uses the wrong size, `_aux_linalg.py` 430 [C55].
16. haroldgcd stops early [C07].
17. haroldpolyadd is not trimmed [C03]; haroldpolymul fails on a vanishing first factor [C04].
18. lqr tests `weight_on` as a substring [C52].
19. `_state_or_abcd` raises UnboundLocalError on a shape mismatch [C47].
20. ackermann ignores superfluous poles and cannot handle complex ones [C49, C50].
21. step and impulse responses of discrete models without t: a pole at -1, or unstable poles that are all negative, raise ValueError; every pole in (0, 1) is taken for an integrator (344, no absolute value), so the horizon is 25 time units for any of them, and a sampling period above 25 raises [C78].
22. simulate_linear_system: x0 is counted once per channel [C43]; single samples and one-state models with x0 fail [C41]; the time grid test has an absolute tolerance [C68].
23. MIMO transfer_to_state raises on numerators with leading zeros [C32].
24. State.DiscretizedWith survives SamplingPeriod=None (not proved).
25. H2 norm of discrete models with D != 0 is inf, of a zero static gain raises [C66]; H-infinity norm of a static gain raises [C71].
26. pair_complex_numbers: IndexError for unpairable lists [C58].
27. haroldlcm: leading zeros raise, positive clean-up thresholds destroy small coefficients [C08].
28. 1/(s+1) - 1/(s+2) raises ValueError [C67].
29. transfer_to_state drops small remainder coefficients [C31].
30. The Hessenberg elimination of frequency_response has no pivoting: nan at regular frequencies [C45]; units are misread [C46].
31. dcgain of c/(z-1) with small c is 0 [C61].
32. random_state_model with one state may return a pole at 0 [C60].
33. lyapunov_eq_solver truncates the solution for integer Y [C53].
34. state_to_transfer refuses 1 x m and p x 1 static gains [C33].
35. controllability_indices does not test columns from left to right [C73].
36. H-infinity norm of discrete models uses the continuous-time Hamiltonian: 10 - 1/(z + 1/2) has gain 12 at z = -1, the value returned is 10(1 + sqrt eps) [C71].
37. State.dcgain raises IndexError for a zero input matrix and ValueError when all states are measured with another number of inputs; its infinity is always positive, unlike that of Transfer.dcgain [C76].
38. transmission_zeros of a model with an inert input direction depends on the kernel basis the svd returns, and can contain inf [C77].
39. transmission_zeros of a zero transfer function with nonzero B and C returns a point that is not a zero [C77].
40. frequency_response(G) of a continuous model raises ValueError (negative number of samples) when all its poles and zeros are nonzero but below spacing(100)/1e5, about 1e-19 [C79].
41. pole_properties of a discrete model with a pole at 0 (a delay) has an infinite frequency and a NaN damping ratio for it, which is documented for integrators only [C80].
42. bode_plot and nyquist_plot of more systems than style entries (ten by default) draw only the first ones: zip ends with the shorter list [C81].
43. bode_plot and nyquist_plot of several systems without frequencies use the grid of the first system for all of them: w is overwritten in the first iteration and is not None in the next ones [C81].
44. _get_common_freq_grid: a grid that needs padding on both sides gets only the upper one, since the second hstack starts from the unpadded grid [C81].
45. bode_plot of a static gain with frequencies raises ValueError unless there are exactly two of them, since frequency_response returns two samples for gains [C81].
46. bode_plot shows uninitialised memory as the phase of a sample that is zero or not a number (np.empty_like), while the magnitude is nan; in that case the phase is also unwrapped across the boundaries of channels [C81].
47. step_response_plot of more systems than style entries draws only the first ones (zip), and the axis limit ignores the others [C83].
48. impulse_response_plot accepts a style and never uses it [C83].
49. discretize of a static-gain Transfer that is one row or one column raises: the array of the gains is read as polynomial coefficients, _discrete_funcs.py lines 108-111 [C84].
50. undiscretize of a static-gain Transfer raises: `Transfer(G.to_array)` passes the method instead of its value, _discrete_funcs.py line 269 [C84].
51. system_norm of a static-gain Transfer raises for p = inf, and for p = 2 when the gain is zero [C85].
52. lower0 of cancellation_distance is not a lower bound: the code looks only at the eigenvalue of least upp0; for F = diag(1, 3), G = (0, -2) the pair is uncontrollable as it stands, and with a double eigenvalue and an unlucky basis of its eigenvectors lower0 is positive [C86].
