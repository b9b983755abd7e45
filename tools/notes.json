{
 "C01": {
  "note": "full"
 },
 "C02": {
  "note": "full"
 },
 "C03": {
  "note": "full"
 },
 "C04": {
  "note": "full"
 },
 "C05": {
  "note": "the kernels argument must point to n_kernels entries (caller contract); the beam level 0 values are covered by the handle model"
 },
 "C06": {
  "note": "all setter/getter pairs over all call histories; xrtm_qx is not a value getter; a failed xrtm_solution_2 is excluded (C27)"
 },
 "C07": {
  "note": "ranges as answered by the getters over all histories, NaN as named exception; binary64 via SpecFloat"
 },
 "C08": {
  "note": "atomic setters, immediate refusals, and a witness for each exception"
 },
 "C09": {
  "note": "refusal before the first solution, no uninitialised answer; two exceptions with witnesses"
 },
 "C10": {
  "note": "index safety of setters and getters; unchecked getters refuted with witnesses"
 },
 "C11": {
  "note": "first missing input reported, soundness and completeness of the gate; xrtm_solution_2 is not gated (witness)"
 },
 "C12": {
  "note": "use after free and double free are a distinct outcome that never occurs; leak of the kernel function flags with witness"
 },
 "C13": {
  "note": "over all call histories"
 },
 "C19": {
  "note": "placement search with the carried index, in binary64; the remainder is the rounded difference; NaN outputs refuted; coherence of the cached placement is C14"
 },
 "C20": {
  "note": "all arrays of the first and second set in terms of the inputs, union rows of the first set and of all adding codes; union rows of the second set refuted"
 },
 "C21": {
  "note": "count and disjunction exact, conjunction refuted; placement of the summary in front of the array not modelled"
 },
 "C23": {
  "note": "terms are arbitrary inputs; radiances and derivatives, binary64; NaN masking and untested outputs shown by witnesses"
 },
 "C24": {
  "note": "over any number type; adjointness over the reals"
 },
 "C25": {
  "note": "all tables, all masks and texts; development solvers and stderr messages not modelled"
 },
 "C26": {
  "note": "The reverse pass itself (get_solution_internal_a) is a parameter; the loop, index decoding and contraction are modelled. C26_failed_pass_spoils_later_outputs_refuted: its return value is ignored by the caller and the seed stays set."
 },
 "C27": {
  "note": "C27_failure_restores_refuted is the witness that a failed call is not undone."
 },
 "C33": {
  "note": "Whole insertion and lookup side of the tree. Deletion and stepping through parent pointers, which the library never calls, are not modelled."
 },
 "C32": {
  "note": "Whole file src/xrtm_save_tree.c except memory exhaustion and the free callbacks stored in the blocks."
 },
 "C14": {
  "note": "Arithmetic is left open (record physics over an arbitrary value type); the theorems hold for all of it."
 },
 "C15": {
  "note": "disciplined_all is the discipline; refutation C15_one_layer_change_refuted."
 },
 "C16": {
  "note": "Arithmetic left open; solvers outside the project, the Lidort form of the phase matrices and STACK_REUSE_ADDING are not modelled."
 },
 "C17": {
  "note": "Condition careful_all; each exclusion has its refutation."
 },
 "C18": {
  "note": "C18_next_solution, C18_clear_forgets."
 },
 "C35": {
  "note": "Model: malloc does not fail; sizes do not overflow. The refuted theorems name the two exceptions."
 },
 "C22": {
  "note": "All in full for unbounded sizes."
 },
 "C36": {
  "note": "Two refutations with witnesses (C36_update_twice_refuted, C36_other_joint_refuted) delimit the positive theorems. One Fourier term is followed; the arrays of a stack are one allocation; allocation failure is not modelled."
 },
 "C29": {
  "note": "Over the reals; rounding not modelled. The derivative theorem is for the coefficient branch; the asymmetry-parameter branch is exact only where the exchanged index makes no difference (C29_asymmetry_derivatives) and refuted otherwise."
 },
 "C30": {
  "note": "Over the reals; rounding not modelled. Full refresh only: which levels a partial refresh keeps is C15."
 },
 "C28": {
  "note": "Stated on binary64 values (SpecFloat) and linked to reals through Flocq; threshold is the default 1e-5, which no API call changes. Nodes are assumed at least two thresholds above zero and cosines in (0,1]. Three refutations delimit the claim."
 },
 "C34": {
  "note": "Heap model of misc/gstruct_dclist.h refined to sequences for all 23 operations; malloc failure is not modelled."
 },
 "C31": {
  "note": "Over the reals; LAPACK's solve is a parameter with its contract as hypothesis. The linearised routines are modelled as writes to memory slots with the aliasing of the callers; exactness is proved by solving for the derivative of the inverse (Neumann series for openness), not by assuming differentiability of the result."
 },
 "C38": {
  "note": "Over the reals, on top of the adding model of C31; rounding is not modelled. The dense solver is taken by its contract. Handle-level theorems use the flags that build_set derives from the inputs."
 },
 "C37": {
  "note": "Over the reals with LAPACK's solve as a contract; rounding is not modelled. Hypotheses: the slices and their doubles are such that multiple reflection sums up (slices_regular), layer derivatives are also beam and thermal derivatives. The exceptions are C37_beam_derivs_refuted, C37_cold_top_refuted, C37_cold_top_derivs_refuted, C37_vector_emission_refuted, C37_emission_unpolarised_refuted. layer_double_s and the doubling adjoints are not modelled."
 },
 "C39": {
  "note": "Model arithmetic is over the reals; the forward model is an arbitrary function of the inputs that may also fail."
 },
 "C40": {
  "note": "Arrays passed by the caller are taken to be large enough; the accessors of g are not compiled in to any use (XRTM_SOLVERS_USE_G is empty)."
 },
 "C41": {
  "note": "The reflection vectors and matrices of the surface are arbitrary inputs; arithmetic is over the reals; C14-C17 treat the dependency flags."
 },
 "C42": {
  "note": "Exact for all inputs in real arithmetic, up and down, at levels and optical depths, values, derivatives and corrections. Two refutations: no sun, and the point at which the derivatives at optical depths are taken. sl = 1 / mu when looking down is excluded by hypothesis off_beam."
 },
 "C43": {
  "note": "Real arithmetic. The transpose identity is proved by an induction over layers and outputs with a potential pairing the adjoint state with the forward linearization; the gradient then follows from C42. Four refutations name where the code departs from it."
 },
 "C44": {
  "note": "Reals for doubles; LAPACK's factorisation and solution by contract (solver, tsolver). Gradients are stated as derivatives of weighted sums along every differentiable path of operators the flags allow, for any family of radiances that solves the interaction equations near the point. Refuted: thermal emission of a layer above an unvarying partner (upwards only), bottom output without a surface."
 },
 "C45": {
  "note": "Scalar mode, classical particular solution, symmetric form off, over the reals. The eigenvalue routine is a parameter with a contract. The real eigenbasis (separable, a hypothesis of layer_exact) is proved to exist by C45_separable when all weights are positive and by C45_separable_directions with output directions of weight zero off resonance; C45_separable_refuted shows the latter is needed."
 },
 "C46": {
  "note": "Scalar mode, classical source, the branches of C45. Distinct eigenvalues and the absence of decoupled directions with weight are hypotheses; the existence of differentiable eigenvectors is proved from the former. C46_no_scattering_refuted: the exception."
 },
 "C47": {
  "note": "C45/C46 per layer, C20 for the flags, C31/C38 for adding; the hypotheses of C31 and C38 about regular matrices are discharged here by an energy argument (AtmProofs)."
 },
 "C48": {
  "note": "Values; thermal output at depths refuted."
 },
 "C49": {
  "note": "Levels for all flags; depths without thermal emission; fixed depth and light from below without a surface refuted."
 },
 "C50": {
  "note": "All loops and recurrences of the scalar code as written, over the reals; writes are bounded by the length of the arrays. The quadrature itself is not modelled: exactness is a hypothesis of C50_conserves and C50_scatters only."
 },
 "C51": {
  "note": "Without the symmetric form. Exceptions: derivs_refuted, stale_derivs_refuted, adjoint_refuted, mixed_adjoint_refuted, li_reciprocity_refuted, undefined_refuted."
 },
 "C52": {
  "note": "C52_column composes the outputs with the eigenvalue solver, adding and the boundary input (C45, C47); the surface part uses C41 and C51, the normalization C50. What the layers absorb is stated with any integral H of the absorbed power."
 },
 "C53": {
  "note": "Over the reals. That the starting values of the code lie in the basins of the roots is a hypothesis (at_roots), except for the rule of one point, which is computed outright. Discharges the hypothesis on the quadrature in C50 and C52."
 },
 "C54": {
  "note": "Values without derivatives and without the source function integration for further output angles. The dense solver (LAPACK general) that the source selects."
 },
 "C55": {
  "note": "Output at the streams, dense matrix. The derivatives of the optical inputs, beam and surface are inputs; the LU routines are LAPACK's contract."
 },
 "C56": {
  "note": "Without derivatives and without thermal sources, in real arithmetic, one direction at a time. The linear solver is any function that solves non-singular systems."
 },
 "C57": {
  "note": "At levels, with a beam, one parameter and one direction at a time, in real arithmetic; derivatives of output at depths are not modelled (their calls exchange arguments as in C56). The linear solver is any function that solves non-singular systems."
 },
 "C58": {
  "note": "C58_orders, C58_general and C58_error hold for every run that ends with an answer. The atmosphere is the one of thin layers: how far it is from the equation of transfer is not stated. Refuted: light at the top counted at each order, zero reported at the boundaries, stop on negative light."
 },
 "C59": {
  "note": "C59_derivatives for every differentiable curve of atmospheres; layers whose derivative flag is off must have phase functions that do not vary. Refuted at a thickness equal to the limit (C59_jump_refuted)."
 },
 "C60": {
  "note": "C60_not_negative, C60_grows, C60_below, C60_unit for every run that ends with an answer; negative components after the zeroth are outside of the first three. Refuted: proportional to the light at a fixed tolerance (C60_unit_refuted); light that enters at the top (C58_top_refuted)."
 },
 "C61": {
  "note": "Full statement proved for the solver without derivatives: C61_second_order from a separate description of the light scattered twice by differential equations; existence of such light shown on a sample. C61_spherical_refuted shows the exception for slants other than that at the top. Derivatives of the solver are not modelled."
 }
}