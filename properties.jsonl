{"id": "C01", "title": "Option sets accepted exactly when consistent", "statement": "xrtm_check_options returns 0 for an option mask exactly when the mask names exactly one Fourier convergence test, one output-position kind, one particular-solution kind, one phase-function kind and one quadrature, at least one output direction, a matrix phase function if and only if vector is on, and none of the documented conflicting pairs (n_t_tms/no_azimuthal, save_layer_r_t_s/stack_reuse_adding, stack_reuse_adding without calc_derivs, stack_reuse_adding/top_down_adding, top_down_adding/bottom_up_adding); otherwise it returns XRTM_INT_ERROR.", "quantifier": "every option mask (all 2^32 and more bit patterns)", "why_tests_cant": "There are 2^32 masks and eighteen ordered rejection rules; tests sample a handful.", "anchors": ["src/xrtm_interface.c:xrtm_check_options", "src/xrtm_interface.h:xrtm_option_mask"]}
{"id": "C02", "title": "Creation fills in unspecified options minimally and consistently", "statement": "When a handle is created, the stored option mask contains every requested option, adds only the documented defaults (vector when n_stokes>1, delta_m when n_t_tms, one default per unspecified exclusive group, both output directions when neither is requested, save_phase_mats with phase_matrix_lc), and filling in defaults twice is the same as once. A creation that succeeds always stores a mask that passes xrtm_check_options.", "quantifier": "every requested option mask and every stokes count", "why_tests_cant": "Ranges over all masks; the defaults interact (vector changes the phase default).", "anchors": ["src/xrtm_interface.c:xrtm_create_misc"]}
{"id": "C03", "title": "Counts are validated against options", "statement": "xrtm_check_counts succeeds exactly when derivative count and calc_derivs agree, delta_m has at least 2*n_quad+1 coefficients, sfi has user angles, one-way adding has exactly one output level and several Stokes parameters imply vector.", "quantifier": "every option mask and every combination of integer counts", "why_tests_cant": "Unbounded integer parameters.", "anchors": ["src/xrtm_interface.c:xrtm_check_counts"]}
{"id": "C04", "title": "Solver/option compatibility table is exact", "statement": "xrtm_check_solvers succeeds exactly when no requested solver is in the set of solvers excluded by any active condition (stream counts, several solar angles, more than two output levels, user angles without sfi, delta_m without n_t_tms, n_t_tms, no_azimuthal, output_at_taus, lobatto, sfi, missing solar source, thermal source, stack reuse, one-way adding). In particular every solver that a successfully created handle holds is compatible with every option it holds, and removing solvers from an accepted request keeps it accepted.", "quantifier": "every option mask, solver mask and combination of counts", "why_tests_cant": "Too many combinations; varargs scanning stops at the first zero.", "anchors": ["src/xrtm_interface.c:xrtm_check_solvers", "src/xrtm_interface.c:check_solvers"]}
{"id": "C05", "title": "Creation succeeds exactly on valid arguments and fixes the dimensions", "statement": "xrtm_create succeeds exactly when every count is in range, every kernel is valid and the completed options, counts and solvers pass their checks; on success the number of Fourier terms and of retained coefficients never exceed max(1,2*n_quad), the number of Fourier terms summed is 1 or the full number, n_derivs is zero without calc_derivs, and the first beam level has zero optical depth and unit transmittance.", "quantifier": "every argument tuple of xrtm_create", "why_tests_cant": "Unbounded argument space.", "anchors": ["src/xrtm_interface.c:xrtm_create_misc", "src/xrtm_interface.c:update_n_four2"]}
{"id": "C06", "title": "What was set is what is read back", "statement": "After a setter returns success, the matching getter returns the value that was set (for layer albedo and solar/user angles: the documented transformed value), no matter which other inputs were set before, and setting one input leaves the value reported for every other input unchanged.", "quantifier": "every reachable handle, every input, every accepted value, every index", "why_tests_cant": "Ranges over all handle histories and all pairs of inputs.", "anchors": ["src/xrtm_interface.c:xrtm_set_*", "src/xrtm_interface.c:xrtm_get_*", "src/xrtm_support.c:xrtm_set_layer_x"]}
{"id": "C07", "title": "Inputs that pass the setters stay in their documented ranges", "statement": "In every reachable state of a handle each input that has been set is inside its documented range (positive layer optical depth, single scattering albedo in [0,1), strictly increasing output levels within [0,n_layers], non-increasing level heights, non-negative sources and tolerances, kernel amplitude factors in [0,1], first phase coefficient 1 up to rounding), unless a NaN was passed, which every range test lets through.", "quantifier": "every history of API calls on a handle, every argument including NaN and infinities", "why_tests_cant": "Invariant over unbounded call histories.", "anchors": ["src/xrtm_interface.c:xrtm_set_*"]}
{"id": "C08", "title": "A rejected setter call changes nothing, with four named exceptions", "statement": "A setter that returns an error leaves every input, every set flag and every dependency flag unchanged, except xrtm_set_out_taus (earlier elements already stored), xrtm_set_coef_* (earlier layers already stored), and xrtm_set_theta_0 / xrtm_set_out_thetas when the solar angle collides with two nodes at once; for these exceptions a witness state exists in which the failed call does change the handle.", "quantifier": "every reachable handle and every rejected call", "why_tests_cant": "Ranges over all states; tests rarely look at the state after a failure.", "anchors": ["src/xrtm_interface.c:xrtm_set_*", "src/xrtm_interface.c:mu_0_singularity_adjust"]}
{"id": "C09", "title": "Reading an unset input is refused before the first solution", "statement": "Until the first solution (or derivative bookkeeping call) succeeds, every value getter returns its error code for an input that was never set successfully, and never an uninitialised value.", "quantifier": "every history before the first solution, every input and index in range", "why_tests_cant": "Ranges over all call histories.", "anchors": ["src/xrtm_interface.c:GET_INPUTS_CHECK_SET_FLAGS", "src/xrtm_support.h"]}
{"id": "C10", "title": "Index arguments out of range never touch memory", "statement": "A setter or getter called with a layer, derivative, kernel, parameter or coefficient index outside the dimensions fixed at creation returns an error and neither reads nor writes outside the handle's arrays; the getters that consult the per-element set flag before the range test (n_coef, coef, omega, ltau, kernel_ampfac, kernel_params) and the kernel getter with a negative index are the exact exceptions, each with a witness.", "quantifier": "every handle, every integer index", "why_tests_cant": "Out-of-bounds reads usually go unnoticed in tests.", "anchors": ["src/xrtm_interface.c:xrtm_get_omega", "src/xrtm_interface.c:xrtm_get_kernel", "src/xrtm_support.h:CHECK_INDEX_RANGE"]}
{"id": "C11", "title": "No solution from an incompletely specified handle", "statement": "A solution call is refused while any input required by the handle's options, solvers, layers and kernels has not been set, and the input reported missing is the first one in the documented order; once every required input has been set (and, with output at optical depths, those are increasing and within the atmosphere, and derivative bookkeeping has been updated) the gate lets the call through.", "quantifier": "every handle configuration and every history of setter calls", "why_tests_cant": "The set of required inputs depends on options, solver set, layers, kernels and parameters.", "anchors": ["src/xrtm_interface.c:check_inputs_initialized", "src/xrtm_interface.c:solution_preprocess", "src/xrtm_interface.c:check_inputs_post_checks"]}
{"id": "C12", "title": "Set-flag memory is never used after it is freed nor freed twice", "statement": "The per-element set flags are released exactly once, by the first successful readiness check or else at destruction, and no later API call reads or writes them; the user-kernel flag array is the exact exception: it is leaked whenever a readiness check succeeded.", "quantifier": "every history of API calls followed by destroy", "why_tests_cant": "Memory safety over unbounded call histories.", "anchors": ["src/xrtm_interface.c:check_inputs_initialized", "src/xrtm_interface.c:xrtm_destroy", "src/xrtm_support.c:xrtm_set_layer_x"]}
{"id": "C13", "title": "Once ready, always ready", "statement": "After one solution call has passed the readiness check, no later setter call (accepted or rejected) makes the handle unready, and the readiness check itself never changes an input.", "quantifier": "every history of API calls", "why_tests_cant": "Invariant over histories.", "anchors": ["src/xrtm_interface.c:check_inputs_initialized", "src/xrtm_interface.c:solution_preprocess"]}
{"id": "C14", "title": "Scaled optical properties match the current inputs when used", "statement": "After any history of setter calls, clears, flag updates and solutions, the delta-M scaled coefficients, albedo and optical depth of a layer and their derivatives equal, once refreshed, those computed from the inputs set last. The exception is a solution that switches derivatives off while it runs (xrtm_solution_2): there is a history in which it leaves stale derivatives marked as current.", "quantifier": "every history of setter calls, saved-result clears and solutions; every layer", "why_tests_cant": "Cache staleness depends on the order of arbitrary call histories.", "anchors": ["src/xrtm_model.c:opt_props_update", "src/xrtm_interface.c:set_deps"]}
{"id": "C15", "title": "Beam attenuation is coherent when the whole profile is refreshed", "statement": "Optical depths, transmittances and average secants along the beam (and derivatives), after a refresh of the whole profile, equal those of the current inputs after any history in which two-way adding is used only under the discipline below. The incremental refresh used by two-way adding is right down to the level asked for when, after the first computation, layer inputs are set from some layer down to the surface; a single-layer change above the lowest layer is a history in which two-way adding uses a stale beam.", "quantifier": "every history of setters and partial or full refreshes, every number of layers", "why_tests_cant": "Needs an invariant over interleavings of partial refreshes.", "anchors": ["src/xrtm_model.c:beam_params_update", "src/xrtm_model.c:update_beam_params", "src/xrtm_model.c:update_beam_params_all"]}
{"id": "C16", "title": "A solution depends only on the current inputs", "statement": "Without result-saving options a solution by any of the project's boundary-value, adding or single-scattering solvers, after any history of setter calls, clears and earlier solutions, equals the solution of a new handle given the same inputs, whatever the arrays of the new handle contain, provided the inputs missing from the boundary-source dependency list (surface emission and its derivative, isotropic-source derivatives, user angles, surface derivative flags) are not changed between solutions without a clear; for each of these there is a history that returns a stale result.", "quantifier": "every history of setter calls and solutions", "why_tests_cant": "Exactly the class of bugs (stale caches) that needs an adversarial history.", "anchors": ["src/xrtm_model.c:update_diff_bound_input", "src/xrtm_model.c:fourier_get_bvp", "src/xrtm_interface.c:set_deps"]}
{"id": "C17", "title": "Saved layer and total results are reused only when still valid, except for named inputs", "statement": "With result-saving options on, a solution that reuses saved phase matrices, local matrices, layer or total results equals that of a new handle with the same inputs, saving or not, for every history that uses one solver and direction, keeps the derivative flags, meets no norm-check failure, and changes none of the inputs missing from the dependency lists; beam flux, doubling start thickness, level emission and its derivative, the solver, the derivative flags, the layers above (spherical beam) and a failed norm check are each shown to lead to a wrong reuse.", "quantifier": "every history of setter calls and solutions, every save option", "why_tests_cant": "Needs quantification over histories.", "anchors": ["src/xrtm_model.c:get_layer_R_T_S_U_W_V", "src/xrtm_model.c:get_local_r_t_u_w", "src/xrtm_model.c:get_phase_mats"]}
{"id": "C18", "title": "Clearing saved results forces full recomputation", "statement": "After xrtm_clear_saved the next solution equals that of a new handle with the same inputs, whatever the earlier history, including histories that left stale results; with saving options on this is shown when the new handle reports no error.", "quantifier": "every history followed by a clear and a solution", "why_tests_cant": "Quantifies over all histories.", "anchors": ["src/xrtm_interface.c:xrtm_clear_saved", "src/xrtm_interface.c:init_deps"]}
{"id": "C19", "title": "Output optical depths are assigned to the layer that contains them", "statement": "For increasing output optical depths within the atmosphere, each is assigned a layer whose top and bottom cumulative optical depths bracket it, with the remaining depth inside the layer equal to the difference, and the search never runs past the last level.", "quantifier": "every number of layers, all positive layer depths and all admissible outputs", "why_tests_cant": "The two-loop search has boundary cases at every level and at the total depth.", "anchors": ["src/xrtm_model.c:update_utaus", "src/xrtm_interface.c:check_inputs_post_checks"]}
{"id": "C20", "title": "Derivative flags say exactly what varies", "statement": "After xrtm_update_varied_layers, layer i is flagged for derivative j exactly when some linearised optical depth, albedo or coefficient in use of that layer is non-zero (surface: amplitude factor or parameter), the beam flag of level i exactly when some layer at or above i is flagged, the thermal, source and total flags and both adding codes are exactly the combinations of what lies above, at and below, and no code is left undefined.", "quantifier": "every number of layers and derivatives and every assignment of linearised inputs", "why_tests_cant": "Combinatorial in layers x derivatives.", "anchors": ["src/xrtm_interface.c:build_derivs_*", "src/xrtm_interface.c:xrtm_update_varied_layers"]}
{"id": "C21", "title": "Flag summaries agree with the flags", "statement": "After the summary of a flag array is filled, the reported count and disjunction equal those of the array (zero-length arrays report nothing); the reported conjunction is always false, so it is wrong exactly for non-empty all-true arrays.", "quantifier": "every flag array of every size", "why_tests_cant": "Quantifies over arrays of unbounded size.", "anchors": ["src/xrtm_utility.c:flags_fill_meta", "src/xrtm_utility.c:flags_fill_meta2", "src/xrtm_utility.c:flags_or"]}
{"id": "C22", "title": "Layer stacks are contiguous, well nested and complete", "statement": "For every number of layers and derivatives and every pattern of varying layers: planning the layer stacks for reuse adding ends within one round more than there are flags, never writes beyond the table allocated for it (n_layers^2 stacks; at most n_layers(n_layers+1)/2 are used) and never follows an unset pointer. The plan starts with every single layer; every further stack is the concatenation of two earlier, vertically adjacent stacks; no two stacks have the same layers (the built-in duplicate check never fires); the longest runs of layers that do not vary with some derivative are stacks of the plan and exactly those are marked as needed; no stack is joined in vain; the use counts are exact.", "quantifier": "every number of layers and derivatives and every flag pattern", "why_tests_cant": "Greedy algorithm over an unbounded combinatorial input.", "anchors": ["src/xrtm_stacks.c:build_stack_chain"]}
{"id": "C23", "title": "Azimuth series stops only on two consecutive small terms", "statement": "The number of Fourier terms reported is either the full number, or the last two summed terms (never the very first) each changed every requested intensity by less than the tolerance relative to the running sum; the series is cut at the first such opportunity; with zero tolerance all terms are always summed; every requested output and derivative is the sum, in order, of exactly the reported number of terms and nothing else is written. Exceptions: a NaN at one angle hides terms of earlier angles from the test, and Stokes parameters other than I and derivatives are not tested.", "quantifier": "every sequence of Fourier terms, every tolerance, every number of terms", "why_tests_cant": "Quantifies over all sequences of terms.", "anchors": ["src/xrtm_model.c:get_solution_internal"]}
{"id": "C24", "title": "Fourier terms are expanded with the right Stokes symmetry", "statement": "Expanding a Fourier component multiplies I and Q by the cosine and U and V by the sine for every stream, for one to four Stokes parameters, and nothing else is written; the reverse-mode expansion adds exactly the transposed product.", "quantifier": "every number of streams and Stokes parameters, every component vector", "why_tests_cant": "Unbounded stream counts.", "anchors": ["src/xrtm_model.c:azimuth_modes", "src/xrtm_model_a.c:azimuth_modes_a"]}
{"id": "C25", "title": "Option, solver, output, kernel and method names round trip", "statement": "Every index of the option, solver, output, kernel and finite-difference-method tables has a name and a value and each of the three determines the others; indices outside the table and unknown names and values are refused; the index list of a mask is its set bits in order and fits the array; the name list written for a mask is the names of its bits joined by commas exactly when the buffer has room (otherwise bytes outside it are written); parsing any text yields exactly the bits of the words listed, unknown words are refused, and the list written for a mask parses back to it except that the option 'vector' is always refused. Exceptions with witnesses: the input-name table is out of step with its enumeration, eigen-solver names fit only when both optional back ends are compiled in, an empty index array is written to.", "quantifier": "every index, every mask, every list of names", "why_tests_cant": "Quantifies over masks and lists of unbounded length.", "anchors": ["misc/gindex_name_value.c", "src/xrtm_interface.c:xrtm_option_names", "src/xrtm_interface.c:xrtm_input_names"]}
{"id": "C26", "title": "Reverse mode visits each output once and applies the chain rule to it", "statement": "xrtm_solution_2 visits every requested (direction, level, angle, azimuth, Stokes) output exactly once and stays inside the output arrays; when the reverse passes succeed, the returned derivatives are the chain rule applied to the gradient of that single output, and unrequested outputs have zero derivatives. Exception: a failed reverse pass is not reported and spoils the derivatives of outputs visited after it.", "quantifier": "every number of levels, angles, azimuths, Stokes parameters, derivatives, layers and kernels, every reverse pass", "why_tests_cant": "Arithmetic over unbounded dimensions.", "anchors": ["src/xrtm_interface.c:xrtm_solution_2"]}
{"id": "C27", "title": "xrtm_solution_2 restores the handle on success; a failure removes the derivatives for good", "statement": "When xrtm_solution_2 succeeds the option mask, derivative count and all getters answer as before. When it fails it either changed nothing, or the derivative option and count are gone, no later call brings them back, and every later call about derivatives is refused; other options are unchanged. A fully specified handle on which this happens exists.", "quantifier": "every handle reachable by any history of calls, every outcome of the inner solution", "why_tests_cant": "Error paths of a stateful API.", "anchors": ["src/xrtm_interface.c:xrtm_solution_2"]}
{"id": "C28", "title": "Solar-angle singularity adjustment keeps the angle away from every node it was moved from", "statement": "In double arithmetic and over every history of calls in which no call setting the solar or the output angles was refused: the solar cosine the solvers are given equals the requested one if that is at least the threshold away from every node in use (quadrature nodes and, once set, output cosines); if it collides with a node, that node is the only one and the cosine in use is the threshold away from it (up to 2^-53); it is never moved by more than the threshold; and if nodes are two thresholds apart it is the threshold away from all of them. An angle colliding with two nodes is refused, whichever angle is set last. A single-scattering albedo is reported as given if it is the threshold below one, else exactly that far below. Exceptions (refuted): nodes closer than two thresholds, nodes below the threshold, and a refused call, which leaves its angle in the handle.", "quantifier": "every handle, history of calls, set of nodes, solar angle and cosine function; every binary64 rounding", "why_tests_cant": "Real-valued inputs.", "anchors": ["src/xrtm_interface.c:mu_0_singularity_adjust", "src/xrtm_utility.c:singularity_adjust_auto", "src/xrtm_utility.c:singularity_adjust_down", "src/xrtm_interface.c:xrtm_set_theta_0", "src/xrtm_interface.c:xrtm_set_out_thetas"]}
{"id": "C29", "title": "Delta-M scaling is consistent and its derivatives are exact", "statement": "When the optical properties of a layer are new, delta-M scaling removes exactly the truncated fraction of the scattering optical depth and no absorption, keeps albedo and depth physical, leaves a layer whose expansion fits unchanged, and keeps output levels at their relative place; the scaled phase function plus the forward peak make up the given one through the first coefficient left out (scalar, or vector with generalized coefficients). The linearised update returns exactly the derivatives of the scaled quantities along any path of the inputs, and the reverse update is its exact transpose and leaves the adjoints of the scaled quantities cleared. Exceptions: with vector Legendre coefficients the off-diagonal rows are not scaled; derivatives of the asymmetry parameter are read with exchanged indices; with a solver using the asymmetry parameter beside another one the coefficients are not scaled (the last two need solvers that are not in the published sources).", "quantifier": "all real inputs with f and omega*f other than 1, every coefficient count, number of layers and derivatives, every differentiable path of the inputs", "why_tests_cant": "Real-valued identities.", "anchors": ["src/xrtm_utility.c:delta_m_*", "src/xrtm_utility_a.c:delta_m_*_a", "src/xrtm_model.c:get_delta_m_f", "src/xrtm_model.c:update_opt_props", "src/xrtm_model.c:update_utaus", "src/xrtm_model_a.c:opt_props_update_a"]}
{"id": "C30", "title": "Beam attenuation has its closed form and exact derivatives", "statement": "After a full refresh, for plane-parallel geometry the level transmittance is exp(-(sum of scaled depths above)/mu_0), the average secant of every layer is 1/mu_0, and transmittances decrease strictly downwards from 1; in either geometry each level's transmittance is that of the level above times the layer's. The linearised beam quantities are exactly the derivatives of the nonlinear ones along any path of the layer depths and the reverse routine is their exact transpose for every level asked for. Pseudo-spherical factors are slant paths of a straight ray over the shell thickness, between 1 and 1/mu_0, so the transmittance lies between the plane-parallel and the vertical one. Exceptions: two equal top levels, which the setter accepts, make the factor table read outside of its row; in pseudo-spherical geometry the transmittance can increase downwards.", "quantifier": "every number of layers and derivatives, all positive depths, every differentiable path of the depths, every level asked for, all non-increasing level heights", "why_tests_cant": "Real-valued identities over unbounded layer counts.", "anchors": ["src/xrtm_model.c:beam_params_update", "src/xrtm_model_a.c:beam_params_update_a", "src/xrtm_utility.c:chapman_functions"]}
{"id": "C31", "title": "Adding of layers is elimination of the interface, in any grouping, and its linearisation is the exact derivative", "statement": "The adding of two layers returns the reflection, transmission and source operators that one gets by eliminating the radiances at the interface from the interaction equations of both layers, also when the results overwrite an input; operators that describe the same layers are equal, so every grouping gives the same result. The passes over all layers (whole stack, from the surface upwards, seen from below, seen from above) return the operators of all layers together, and with the flags the library builds from the derivative inputs every flagged derivative they return is the exact derivative, whatever the result arrays held before, and the branch that ends the program is never taken. Exceptions, each with a witness: the derivative of the thermal emission of a layer above a layer that does not vary is not propagated through the whole stack; the derivative of the surface emission on a handle without surface kernels returns what the array held; a factor atran other than 1 (no caller passes one) is ignored in the derivative of the sources.", "quantifier": "every matrix order, every number of layers and derivatives, every operators with regular interfaces, every pattern of derivative inputs, every previous contents of the result arrays", "why_tests_cant": "Algebraic identity over matrices of any size.", "anchors": ["src/xrtm_adding.c: layer_add_ref, layer_add_all, layer_copy_ref_l, layer_copy_all_l", "src/xrtm_model.c: get_total_TOA_R_S_U_V, get_total_BOA_R_S_U_V, get_total_R_T_S_U_W_V"]}
{"id": "C32", "title": "Saved forward state is found again under the same path", "statement": "For the reverse-mode store under every history of encode, decode, recode, call, return, retrieve and proxy calls in which a function decodes only what it encoded and paths stay below 128 strings: every call is defined; the same path text finds the same block, not reported as new; a block reported as new was never handed out before and has the size asked for; a call returns to the caller's path; freeing the store frees each block once. Exceptions, with witnesses: indices (1,21) and (11,2) share a block, names with equal hash share a block, a found block may be smaller than asked, and a proxy of a path for itself dereferences null.", "quantifier": "every sequence of encode, decode and lookup operations", "why_tests_cant": "Quantifies over histories of a tree keyed by hashes.", "anchors": ["src/xrtm_save_tree.c"]}
{"id": "C33", "title": "Balanced search trees stay ordered, balanced and complete", "statement": "After any sequence of insertions with any total ordering, the tree lists the inserted values in strictly increasing order, one per class of equal values and the first one inserted; find returns exactly that value or nothing; insertion reports whether the value was new; count, minimum and maximum are those of the list; the levels satisfy the AA rules, so the depth is at most 2 log2(n+1).", "quantifier": "every sequence of insertions", "why_tests_cant": "Unbounded histories.", "anchors": ["misc/gstruct_aatree.h"]}
{"id": "C34", "title": "Linked lists behave as sequences", "statement": "Whatever list calls a program makes, as long as each names nodes that are where it says they are, every answer is the one the corresponding operation on a sequence gives, the links in both directions agree with the sequence, every value handed over is in the list, held by the program or released exactly once, sorting is stable and in-order insertion keeps the order. One exception: inserting or adding at the front of an empty list reads through a null pointer.", "quantifier": "every sequence of list calls, every value type and comparison that is a total preorder", "why_tests_cant": "Unbounded histories of pointer updates; tests visit a few.", "anchors": ["misc/gstruct_dclist.h"]}
{"id": "C35", "title": "Work arrays never overlap, are handed out again, and are freed", "statement": "Within one computation the work arrays a function and its callers hold never share a byte, each lies inside memory that is in use and is aligned, and nothing is freed twice; returning from a function leaves its callers' arrays as they were; asking for the same arrays again after returning gives the same arrays and allocates nothing; memory is bounded by what is held at once, however long the computation; freeing the work memory leaves nothing allocated. Exceptions: a page can be reallocated in a second round of calls because a later call made it larger, and arrays of shape n_quad_v by n_quad_v taken from the lists are not freed (no solver takes one).", "quantifier": "all sizes, all sequences of requests, calls and returns of any length", "why_tests_cant": "Aliasing, leaks and growth have to be excluded for unbounded request sequences at any call depth.", "anchors": ["src/xrtm_work.c: work_init, work_free, get_work_common, get_work_x1, get_work_vectors, get_work_matrices2, check_work_bounds, work_get1, work_get2, work_get3", "src/xrtm_work.h: work_data, work_shared"]}
{"id": "C36", "title": "Layer stacks keep their memory and contents across plan updates", "statement": "Over every history of plan updates, input changes and solutions with stack reuse: every array belongs to exactly one stack, an update hands the arrays of a stack with the same layers over to the new plan, frees the others once, allocates the missing ones, and destroying the handle frees everything. After a solution the matrices of every stack are those of the present inputs, provided each plan was solved with before the next update (or everything is rebuilt); the auxiliary matrices used for the source vectors too, provided stacks common to two plans are joined at the same layer. Neither proviso can be dropped: calling xrtm_update_varied_layers twice in a row makes a never computed stack pass for computed, and a stack joined differently in the new plan keeps the auxiliary matrices of the old joint.", "quantifier": "every number of layers and derivatives, every flag pattern of every update, every history", "why_tests_cant": "Stale or uncomputed arrays appear only after particular sequences of plan changes; ownership must hold for all of them.", "anchors": ["src/xrtm_stacks.c:stack_chain_alloc", "src/xrtm_stacks.c:stack_chain_free", "src/xrtm_interface.c:xrtm_update_varied_layers", "src/xrtm_model.c:build_layer_stacks"]}
{"id": "C38", "title": "Radiances computed by adding solve the equations of layers and surface, with exact derivatives", "statement": "For every number of layers and streams, the radiances that adding returns at the top and the bottom of the atmosphere satisfy the interaction equations of all layers together with the reflection and emission of the surface (or the given radiance from below without one), that solution is unique, and the derivatives returned are the derivatives of that solution along any family of inputs with the given derivatives, whatever the result arrays held before. Named exceptions, each shown by a witness: derivatives of the thermal emission of a layer together with that of the surface (never written), or together with the isotropic illumination (which is dropped); with downward adding only, derivatives of the emission of the surface alone (never written); with upward adding only, derivatives of the isotropic radiance from below (not read); one-way adding ignores some of the isotropic boundary radiances.", "quantifier": "all numbers of streams, layers and derivatives, all layer operators and sources for which the multiple reflections sum up, all surfaces, boundary radiances, derivative inputs and previous array contents", "why_tests_cant": "the code picks one of sixteen branches per derivative by what varies above and below; tests compare a few configurations with finite differences", "anchors": ["src/xrtm_radiance.c: radiance_slab, radiance_toa_ref, radiance_boa_ref, radiance_boa_all", "src/xrtm_model.c: fourier_get_add_top_down, fourier_get_add_bottom_up, fourier_get_add_both_ways"]}
{"id": "C37", "title": "Doubling gives the exact response of a pile of thin layers, and its derivatives", "statement": "Over exact arithmetic: for every layer with positive optical thickness and every positive starting thickness, the doubling solver cuts the layer into 2^N equal slices (N at least 1), each thinner than the requested starting thickness (or than the layer, if that is thinner) by at most a factor of two. The reflection, transmission and solar source it returns are exactly those of the pile of these slices, each to first order in its own thickness, with the beam attenuated from slice to slice, for any number of doublings, streams and Stokes components, whatever the output arrays held before and whichever derivatives are requested. The thermal source is exact for at most two Stokes components with a Planck function linear through the layer and nonzero at its top. Each requested derivative is the derivative of the pile's response. Exceptions, each shown by a counterexample: (1) a derivative that affects only the solar beam's path (spherical geometry) ignores the change of attenuation within the first thin layer; (2) with a zero Planck value at the top of the layer the emission vanishes and its derivatives are wrong; (3) with more than two Stokes components the emission is combined with the wrong sign of the reflection; (4) emission is put in every Stokes component, so it is polarised.", "quantifier": "all numbers of streams, Stokes components, doublings, layer properties, phase matrices, derivative flags and previous contents of the arrays, and every differentiable variation of the inputs", "why_tests_cant": "the result is the limit of a recursion of unbounded depth over real matrices; a test compares a few layers with tabulated numbers to a tolerance and cannot tell an exact recursion from one that is only close, nor reach the flag combinations for which the derivatives are wrong", "anchors": ["src/xrtm_doubling.c: layer_double, layer_double_l", "src/xrtm_doub_rts.c: rtm_doub_rts, calc_doub_params", "src/xrtm_utility.c: dm_v_mul_D_A, dmat_mul_D_A2", "src/xrtm_scatter.c: phase_matrix_symmetry_ldx3"]}
{"id": "C39", "title": "Finite-difference derivatives: difference quotients and restored inputs", "statement": "For a model object with n finite-difference derivatives, each with its step delta and a direction given by the *_p settings, the finite-difference interface returns the unperturbed radiances together with, for every derivative and every output, a difference quotient of the model along that direction. With the central method the value is (I(+1)-I(-1))/delta where I(f) is the radiance with every input moved by f times the direction, and on success the inputs are what they were before, provided no input is clipped on the way. With a one-sided method derivative j is (I_j-I_0)/delta_j, where I_0 is the radiance of the caller's inputs and I_j that of the inputs moved by the directions 0 to j one after the other (backwards for the backward method). Exceptions, each proved: the one-sided methods never remove a perturbation, so every derivative after the first is that of a different model and the caller's inputs stay changed; the backward method has the wrong sign; the central method gives twice the derivative when delta is the size of the step; an error part way leaves the inputs perturbed; a single-scattering albedo at the largest admissible value is changed by a successful central call; asking for any output besides the radiances is undefined behaviour.", "quantifier": "all models (arbitrary functions of the inputs), all sizes, directions, steps and numbers of derivatives, all inputs, all three methods", "why_tests_cant": "A difference quotient is only correct as a statement about every model and every direction; restored inputs must hold for every history of perturbations, and a test with one derivative cannot see the accumulation.", "anchors": ["src/xrtm_fd_interface.c: perturb_values, xrtm_fd_solution", "src/xrtm_interface.c: setters used by perturb_values", "src/xrtm_utility.c: singularity_adjust_down"]}
{"id": "C40", "title": "Finite-difference settings read back as last given", "statement": "After any sequence of calls that set the step sizes and perturbations of a finite-difference object, every setting reads back as it was last given by an accepted call, or as zero if it was never given; a call with arguments that name no setting of the model is refused and changes nothing, and an accepted call changes exactly the settings it names. Exceptions, each proved: setting the level emission perturbations of one derivative is undefined behaviour; the coefficient getter checks the layer index where it should check the coefficient index, so it refuses coefficients that exist and reads outside the array for indices that do not; it accepts elements 1 to 5 in the scalar case; the step sizes of a new object are not initialised.", "quantifier": "all models and sizes, all sequences of setter calls with any arguments, all settings and indices read", "why_tests_cant": "The claim ranges over all call histories and all indices, including those outside the arrays, where a test may pass by luck.", "anchors": ["src/xrtm_fd_interface.c: xrtm_fd_create, xrtm_fd_set_*, xrtm_fd_get_*", "src/xrtm_support.c: xrtm_set_layer_x_l"]}
{"id": "C41", "title": "Radiation entering at the top and leaving the surface", "statement": "For every Fourier term, angle and Stokes parameter the radiation entering at the top is the isotropic illumination from above in the zeroth term and intensity only, and the radiation leaving the surface is the sum of the isotropic illumination from below, the direct beam attenuated to the surface and reflected by it, and the emission of the surface with emissivity one minus its albedo seen from that angle. Their derivatives are exact along any smooth change of the inputs, and the reverse mode is the transpose of the linearized solar part. Exceptions, each proved: when the emission of the surface varies and its albedo depends on the angle, the derivative uses the albedo of the last angle for all angles; the reverse mode passes nothing back through the emission of the surface.", "quantifier": "all numbers of angles, additional angles and Stokes parameters, all options, Fourier terms, surfaces and sources, all smooth families of inputs", "why_tests_cant": "Exactness of derivatives and of the transpose is a statement about all inputs and directions; a Lambertian surface, which tests use, hides the wrong albedo.", "anchors": ["src/xrtm_model.c: diff_bound_input_update, solar_surface_for_i_four, thermal_surface_for_i_four", "src/xrtm_model_a.c: diff_bound_input_update_a"]}
{"id": "C42", "title": "Single scattering solves the equation of transfer", "statement": "With the single scattering solver, and in the single scattering corrections, the radiance returned at every output level or output optical depth, up and down, is the value there of the field that satisfies the equation of transfer with the once scattered solar beam as its source in every layer, is continuous from layer to layer and equals the given radiation where it enters; such a field exists for every accepted input. The derivatives returned are the derivatives of these values along any smooth change of the inputs. The corrections are the field of the difference between the full and the truncated phase function, whatever enters at the boundary. Exceptions: without sun the result is zero even if radiation enters at the boundary, and the derivatives at an output optical depth are taken at the point that keeps its relative place in its layer, not at the given optical depth. Looking exactly along the beam when downwelling is excluded (the code divides by zero).", "quantifier": "every number of layers, every albedo, optical thickness, phase function value, beam transmission and slant, every direction, every increasing list of output levels or optical depths, every entering radiation, every smooth family of inputs and every derivative", "why_tests_cant": "a comparison with another solver covers finitely many atmospheres and a tolerance; the claim is equality with the solution of a differential equation for all of them, and that the loop over outputs writes each requested place exactly once for every list of outputs", "anchors": ["src/xrtm_single.c: ssr_up_layer, single_scattered_radiance_up, ssr_dn_layer, single_scattered_radiance_dn, n_t_tms_correction_up, n_t_tms_correction_dn", "src/xrtm_model.c: update_utaus"]}
{"id": "C43", "title": "The adjoint of single scattering gives the gradient of the radiances", "statement": "For every atmosphere, set of directions, accepted output levels or optical depths, beam and entering radiation, running the adjoint of the single-scattered radiances with weights g adds to the adjoints of single scattering albedo, optical thickness, beam transmittance, slant path and phase function exactly the gradient of the g-weighted sum of the radiances: applied to any direction the increments equal the weighted linearized radiances the forward call gives for that direction, and started from zero they are the derivative of the weighted sum along every differentiable path of the inputs (outputs at optical depths moving with their layer as in C42). The same holds for the corrections of Nakajima and Tanaka, for the truncated and the full scattering and for what they share. Exceptions: going down, the adjoint of the entering radiation is assigned, so what other calls left in it is lost, and the adjoint of the downwelling correction says that it depends on what enters; outputs at optical depths none of which is in the top layer make the downwelling adjoint read before the array of levels; without a beam the forward call saves nothing and the adjoint is undefined.", "quantifier": "all numbers of layers, directions, Stokes parameters and outputs, all positive optical thicknesses and directions (going down: not along the beam), all weights, directions of change and prior contents of the adjoints", "why_tests_cant": "An adjoint is right only if it agrees with the forward derivative for every direction and every weight at every atmosphere; tests compare a few directions with finite differences to a tolerance.", "anchors": ["src/xrtm_single_a.c:single_scattered_radiance_up_a", "src/xrtm_single_a.c:single_scattered_radiance_dn_a", "src/xrtm_single_a.c:ssr_up_layer_a", "src/xrtm_single_a.c:ssr_dn_layer_a", "src/xrtm_single_a.c:n_t_tms_correction_up_a", "src/xrtm_single_a.c:n_t_tms_correction_dn_a", "src/xrtm_single.c:single_scattered_radiance_up"]}
{"id": "C44", "title": "Reverse mode through adding returns the gradient of the radiances", "statement": "For every atmosphere whose layers are given by reflection, transmission and source operators, the adjoint of adding layers (to each other, to a surface, or to nothing) hands each layer, the surface and the radiances entering at the top and the bottom exactly the gradient of any weighted sum of the operators of the stack, and of the radiances at the output levels: along every differentiable path of the inputs that moves only what the derivative flags allow, the weighted sum has as derivative the sum of the returned adjoints times the changes. With the union codes the library builds in reverse mode this holds going both ways above a surface, and without one with output at the top; and going upwards only, for a solar source and no derivative of the thermal emission of a layer. Exceptions: going upwards only, a layer whose thermal emission varies above something that does not vary gets no gradient; without a surface, output at the bottom exchanges the adjoints of what enters at the top and at the bottom and loses the weight of the upward radiance there.", "quantifier": "all numbers of streams, layers and derivatives, all operators for which the systems solved are nonsingular, all weights, all flags a handle can produce, all paths of change and all prior contents of the adjoints of the boundary radiances", "why_tests_cant": "The adjoint chooses one of sixteen cases per layer from what varies above and below it and must match the derivative of the forward sweep for every weight and every direction; tests compare a few with finite differences.", "anchors": ["src/xrtm_adding_a.c:layer_add_ref_a", "src/xrtm_adding_a.c:layer_add_all_a", "src/xrtm_model_a.c:get_total_TOA_R_S_U_V_a", "src/xrtm_model_a.c:get_total_R_T_S_U_W_V_a", "src/xrtm_model_a.c:fourier_get_add_bottom_up_a", "src/xrtm_model_a.c:fourier_get_add_both_ways_a", "src/xrtm_radiance_a.c:radiance_slab_a", "src/xrtm_radiance_a.c:radiance_toa_ref_a", "src/xrtm_radiance_a.c:radiance_boa_all_a"]}
{"id": "C45", "title": "The eigenvalue solver gives the exact operators of a layer", "statement": "For a homogeneous layer in scalar mode the reflection, transmission and source the eigenvalue solver returns are exactly those of the discrete equation of transfer: incident and outgoing light satisfy the interaction principle with them if and only if they are the ends of a solution of the equation with the scattered beam and thermal emission as sources. Such a solution exists for all incident light and is unique, and the operators do not depend on which eigenvectors the external routine picks. It suffices that less than all light is scattered, that the phase function is reciprocal and that the beam is not in resonance; the existence of a real eigenbasis, positivity of the eigenvalues and invertibility of every matrix that is inverted follow. Output directions with zero weight are included if none of their cosines is the inverse of the decay rate of a solution. Exceptions: an output direction at such a cosine can leave the solver's matrix without an eigenbasis; thermal emission in a layer with zero albedo ends the process although its light exists.", "quantifier": "all numbers of streams, cosines, weights, phase functions, albedos, optical depths, beams and Planck values satisfying the hypotheses, all incident light, all routines meeting the contracts of the linear solver and the eigenvalue routine", "why_tests_cant": "Equality with every solution of a differential equation for all media and depths; tests compare a few radiances with tables to a few digits.", "anchors": ["src/xrtm_eig_rts.c:rtm_eig_rts", "src/xrtm_eig_rts_x.c:calc_global_r_and_t", "src/xrtm_eig_util.c:eig_2n_gen_real", "src/xrtm_utility.c:build_local_r_and_t", "src/xrtm_utility.c:build_txr", "src/xrtm_utility.c:build_gamma", "src/xrtm_utility.c:no_scatter_r_t_s", "src/xrtm_source.c:build_source_vectors_solar_classic_1n", "src/xrtm_source.c:build_global_source_solar", "src/xrtm_source.c:build_thermal_source_coefficients", "src/xrtm_source.c:build_global_source_thermal"]}
{"id": "C46", "title": "The derivatives of the eigenvalue solver are exact", "statement": "The derivatives of reflection, transmission and source of a layer that the eigenvalue solver returns are the derivatives of the values it returns, whichever of the layer, the beam that reaches it and its thermal emission vary, as the flags announce. It suffices that the medium scatters less than all light, has distinct eigenvalues, no direction with weight decoupled from the others, and is not in resonance with the beam. The external routine may return any unit eigenvectors, with any order and sign at any point. Exception: at an albedo of exactly zero the derivative with respect to the albedo is wrong, because the layer is treated as one that cannot scatter.", "quantifier": "all numbers of streams, media, paths of inputs differentiable at the point, flags, and all routines meeting the contracts of the linear solver and the eigenvalue routine", "why_tests_cant": "The statement is about the limit of difference quotients for all media; tests compare with finite differences at a few points to a few digits, and cannot see degenerate or zero inputs.", "anchors": ["src/xrtm_eig_util.c:eigen_derivatives_real", "src/xrtm_eig_util.c:is_trivial_eigenvector", "src/xrtm_eig_util.c:eig_1n_to_2n_real", "src/xrtm_eig_rts_x.c:calc_global_r_and_t", "src/xrtm_source.c:build_source_vectors_solar_classic_1n", "src/xrtm_source.c:build_global_source_solar2", "src/xrtm_source.c:build_thermal_source_coefficients", "src/xrtm_source.c:build_global_source_thermal", "src/xrtm_source.c:scale_add_source_vectors", "src/xrtm_utility.c:no_scatter_r_t_s"]}
{"id": "C47", "title": "The radiances of a whole atmosphere satisfy the equation of transfer", "statement": "For an atmosphere of any number of layers solved with the eigenvalue solver and combined by adding above a surface, no matrix that adding inverts is singular, the monochromatic equation of transfer in all layers (with continuity at the interfaces, the given light falling on the top, and the surface's reflection at the bottom) has exactly one solution, and the radiances returned at the top and at the bottom are those of this solution; the derivatives returned are its derivatives along every variation of the inputs that the linearised inputs announce. Required: each layer scatters less light than it receives, its eigenvalue problem is separable and the beam is not in resonance with it; the surface does not amplify light; for derivatives, distinct eigenvalues in the layers whose optical properties vary, and no variation of thermal emission alone (C31).", "quantifier": "every number of layers and of quadrature directions, every optical properties, sources and surface within the requirements, every set of linearised inputs, every differentiable path of inputs", "why_tests_cant": "A test compares the radiances of some atmospheres with a reference to some tolerance; it cannot show that the result solves the differential equation in every layer at once, that no admissible atmosphere makes an inversion fail, or that the derivative is right for every path of inputs.", "anchors": ["src/xrtm_eig_rts_x.c:calc_global_r_and_t", "src/xrtm_source.c:build_source_vectors_solar_classic_1n", "src/xrtm_adding.c:layer_add_all", "src/xrtm_radiance.c:radiance_boa_all", "src/xrtm_model.c:fourier_get_add_both_ways"]}
{"id": "C48", "title": "The radiances of the boundary value solver are those of the equation of transfer", "statement": "For an atmosphere of any number of layers above a surface, or above none, the boundary value form of the eigenvalue solver fills its band matrix without leaving it, the matrix is not singular, and the radiances returned at every output level are those of the one solution of the equation of transfer in all layers (C47); without thermal emission the same holds at every optical depth inside the layers. At the top and at the bottom the radiances are therefore the same as those of the eigenvalue solver with adding. The only failure is the one that the factorisation reports. Exception: with thermal emission the output at optical depths lacks the light that the emission adds. Required: each layer scatters less light than it receives, its eigenvalue problem is separable, as it is whenever all directions have weight (C45), and the beam is not in resonance with it; the surface does not amplify light.", "quantifier": "every number of layers and of quadrature directions, every optical properties, sources and surface within the requirements, every output level and depth", "why_tests_cant": "A test compares the radiances of some atmospheres with another solver to some tolerance; it cannot show that the banded matrix holds the joining conditions for every number of layers, that no admissible atmosphere makes it singular, or that the output solves the differential equation at every depth.", "anchors": ["src/xrtm_eig_bvp_x.c:solve_bvp", "src/xrtm_eig_bvp_x.c:calc_radiance_levels", "src/xrtm_eig_bvp_x.c:calc_radiance_taus", "src/xrtm_eig_bvp.c:rtm_eig_bvp"]}
{"id": "C49", "title": "The derivatives of the boundary value solver are the derivatives of the light", "statement": "For an atmosphere of any number of layers above a surface, or above none, whose optical properties, sources, surface and incident light vary with a parameter, the derivatives that the boundary value form of the eigenvalue solver returns at every output level are the derivatives of the light of C48 at that level; the light exists and is unique near the parameter's value. With the flags that the handle computes for a derivative every condition between the flags holds. Without thermal emission the derivatives returned at an optical depth inside a layer are those of the light at the same fraction of the layer's thickness. The only failure is the one that the factorisation reports. Exceptions: at an optical depth the derivative is not the one at fixed depth when the layer's own thickness varies; without a surface the derivative of the light that comes from below is ignored. Required: as in C48, and where a layer varies its eigenvalues are simple and the directions coupled (C46).", "quantifier": "every number of layers and of quadrature directions, every differentiable variation of the inputs within the requirements, every output level and depth", "why_tests_cant": "A test compares the derivatives with finite differences for some atmospheres to some tolerance; it cannot show that the linearised system is the derivative of the banded one for every number of layers, every combination of derivative flags and every direction of variation.", "anchors": ["src/xrtm_eig_bvp_x.c:solve_bvp", "src/xrtm_eig_bvp_x.c:calc_radiance_levels", "src/xrtm_eig_bvp_x.c:calc_radiance_taus", "src/xrtm_eig_bvp.c:rtm_eig_bvp"]}
{"id": "C50", "title": "The Fourier components of a scalar phase function add up to the phase function", "statement": "For every Legendre expansion of a phase function, the azimuthal components that the solvers use between the streams, and from the sun to the streams, summed over all orders with the cosines of the azimuth difference, are exactly the phase function at the angle between the two directions, for streams of the same and of opposite hemispheres; the single scattering solver evaluates the same phase function at the same angle. The matrices are reciprocal; for a quadrature that integrates the even Legendre polynomials of the expansion exactly, the component of order 0 redistributes exactly the share of the light given by the first coefficient, so that the requirements of the theorems about the solvers (C45 to C49) are met by a nonnegative normalized phase function. The derivatives are the derivatives for every variation of the coefficients and the reverse mode is the transpose. The closed forms of the four and six stream solvers are the same functions up to a sign that drops out of the products. Every order that a handle has is computed inside the arrays. Exception: a handle created for zero coefficients, which creation accepts, writes outside the arrays of the polynomials when they are computed.", "quantifier": "every expansion, number of coefficients, order, pair of directions and azimuth, every variation of the coefficients and every adjoint", "why_tests_cant": "A test compares some sums with the phase function at some angles to some tolerance; the identity has to hold for all angles and all numbers of coefficients, which is the addition theorem of the Legendre functions as the code computes them.", "anchors": ["src/xrtm_scatter.c: scat_angle, phase_func, calc_Y_x, build_phase_vecs_scalar, build_phase_mats_scalar", "src/xrtm_scatter_a.c: phase_func_a, build_phase_vecs_scalar_a, build_phase_mats_scalar_a", "misc/rtutil_math.c: leg_poly2, leg_poly_assoc2", "src/xrtm_model.c: Y_x_get, get_Y_0, phase_polys_get, phase_func_get, phase_vecs_get, phase_mats_get", "src/xrtm_interface.c: xrtm_create"]}
{"id": "C51", "title": "The surface reflects what its kernels say, and derivatives and adjoints follow where they are written", "statement": "For every list of surface kernels with amplitudes and sensible parameters, every direction from or to the sky, and every order, the reflection vectors and matrices that the solvers get are the coefficients of the cosine series, by the azimuth quadrature of the handle, of the sum of the kernels as the literature defines them in terms of angles (Lambertian, direct-and-diffuse, Roujean, Li sparse and dense, Ross thin and thick, Hapke, Rahman, Cox-Munk with the second parameter as the square of the refractive index, user-defined), with the weights of the integral over the incident light in the matrices; other Stokes components are zero, and every value is a number. Without Li and user-defined kernels exchanging two directions gives the same reflection. A Lambertian surface reflects the light that comes down with the sum of its amplitudes as its albedo, exactly, for every quadrature. The derivatives are the derivatives for Lambertian, direct-and-diffuse and correct user-defined kernels, and for the other kernels with constant parameters if the last of the former in front of them is Lambertian. The reverse mode is right for Lambertian surfaces. Exceptions: with one of the other kernels in front every derivative is made of memory that nothing has written, also that of an amplitude; behind a direct-and-diffuse kernel they add its derivative; the adjoint of the amplitude of a direct-and-diffuse kernel lacks the reflectance, and with any kernel that depends on the azimuth even Lambertian kernels get no adjoint; the Li kernels are not reciprocal; parameters are not checked, so that a single scattering albedo above one in Hapke's kernel gives no number.", "quantifier": "every list of kernels, amplitude, parameter in the kernels' domain, direction, order, number of streams, output directions and azimuth nodes, every variation and adjoint", "why_tests_cant": "Tests compare a few kernels at a few angles with tabulated numbers; that square roots and inverse functions stay in their domains for all directions, that all kernels of any list enter once at each azimuth, and that work memory is written before it is read depend on every combination.", "anchors": ["src/xrtm_brdf.c: brdf_aux_calc_base, brdf_aux_calc_part, brdf_aux_calc_mu_0, roujean_kernel, li_common, ross_thin_kernel, ross_thick_kernel, hapke_kernel, rahman_kernel, cox_munk_kernel, brdf_build_kernel_vecs, brdf_build_ref_vec, brdf_build_kernel_mats, brdf_build_ref_mat", "src/xrtm_brdf_a.c: brdf_build_kernel_vecs_a, brdf_build_ref_vec_a, brdf_build_kernel_mats_a, brdf_build_ref_mat_a", "src/xrtm_model.c: solar_surface_for_i_four, brdf_vecs_get, brdf_mats_get", "src/xrtm_model_a.c: brdf_vecs_get_a, brdf_mats_get_a", "src/xrtm_interface.c: xrtm_create, xrtm_set_kernel_params_1"]}
{"id": "C52", "title": "Reported fluxes and mean radiances account for the light of the atmosphere", "statement": "xrtm_flux and xrtm_mean_radiance report, for scalar radiances, the flux through a horizontal plane and the contribution to the mean radiance of each hemisphere, the downward ones with the direct beam of the sun, at the top of the atmosphere (first output level) and at its bottom (further output levels); what is not asked for stays as it was. For light that satisfies the equation of transfer with normalized phase functions, the divergence of the net flux is 4 pi (1 - omega) times the mean radiance minus the emission; so in a plane parallel atmosphere the net fluxes of two levels differ by what the layers between them absorb, are equal without absorption, and without emission the net flux downwards never grows on the way down. The fluxes reported for layers of the eigenvalue solver above a surface obey this budget, and a Lambertian surface returns its albedo times the downward flux and emits with one minus its albedo. Exceptions: at levels inside the atmosphere, and when the first output level is not the top, the beam is that of another level; with polarization all Stokes components are added up as if they were radiances; without solar sources the downward results use a flux of the beam that nothing has set; with pseudo-spherical attenuation an atmosphere that absorbs nothing gains or loses light; the flux divergence and all derivatives of these outputs are never written.", "quantifier": "all numbers of streams, layers and output levels, all radiances and all solutions of the equation of transfer, all optical properties that satisfy the stated normalization, all attenuation factors, all Lambertian surfaces", "why_tests_cant": "A budget that holds for a tested atmosphere says nothing about other depths, albedos, phase functions and numbers of layers; the budget is a statement about the integral over all depths of a solution of a differential equation.", "anchors": ["src/xrtm_radiance.c: radiance_to_mean, radiance_to_flux", "src/xrtm_model.c: get_solution_internal", "src/xrtm_interface.c: xrtm_mean_radiance, xrtm_flux, xrtm_set_F_0"]}
{"id": "C53", "title": "The quadratures integrate over the hemisphere exactly", "statement": "xrtm_create gives a handle for n streams the Gauss-Legendre points: with the option for normal Gauss-Legendre quadrature the upper half of the rule of 2 n points, with the one for double Gauss-Legendre quadrature the rule of n points on (0, 1). Provided the iteration reaches the roots of the Legendre polynomial (there are exactly as many as its degree), the points increase strictly inside of (0, 1), the weights are positive and add up to 1, every polynomial of a degree below 2 n (double) and every even one of a degree below 4 n (normal) is integrated exactly, so that the even Legendre polynomials of all degrees that n streams can resolve are; the flux factor normalizes the flux of an isotropic field and is 1 for the double rule; the azimuths of the surface kernels are a rule of the same accuracy on (0, pi). Each pass of the iteration is one step of Chebyshev's method on that polynomial; around every root there are starting values from which it ends, within DBL_EPSILON of the root. Exceptions: the iteration can also stay at points that are no roots; the normal rule is not exact for odd polynomials; the option for Lobatto quadrature is accepted and leaves every point and weight at -DBL_MAX.", "quantifier": "every number of points, every polynomial within the degree, every root, every starting value near it", "why_tests_cant": "Exactness is a statement about all polynomials up to a degree and all numbers of points; a test evaluates a few.", "anchors": ["misc/rtutil_math.c: gauss_leg_point", "misc/rtutil_math.c: gauss_leg_quad", "misc/rtutil_math.c: gauss_leg_quad2", "src/xrtm_interface.c: xrtm_create"]}
{"id": "C54", "title": "The two-stream solver solves the equation of transfer of one stream per hemisphere", "statement": "For every number of layers, with or without a beam and a surface, for the first two Fourier components and for every accepted optical input whose layers amplify nothing and are not in resonance with the beam, the upward and downward radiances that XRTM_SOLVER_TWO_STREAM reports at every output level, and at every output depth inside a layer, are those of the one light that obeys the equation of transfer with one stream per hemisphere in every layer, passes the levels without a jump, is dark from above and is reflected by the surface below; they are the numbers that XRTM_SOLVER_EIG_BVP reports for the same inputs with one stream. Exceptions: for the second Fourier component with the doubled quadrature and albedo times first coefficient above 8/3 the root of a negative number is taken; at resonance there is a division by zero; with an albedo of exactly one the system of the first component is singular; with max_coef below two the solver reads past the coefficients.", "quantifier": "all numbers of layers, optical thicknesses, albedos, phase functions, beams, surfaces, output levels and depths", "why_tests_cant": "the linear system grows with the layers, and the equality with another solver has to hold for every combination of layers and at every depth, up to singular cases of measure zero that no sample meets", "anchors": ["src/xrtm_two_stream.c: rtm_two_stream", "src/xrtm_model.c: fourier_get_bvp", "src/xrtm_interface.c: xrtm_check_counts, xrtm_check_solvers", "src/xrtm_eig_bvp.c: rtm_eig_bvp"]}
{"id": "C55", "title": "The derivatives that the two-stream solver reports are those of the radiances that it reports", "statement": "For every number of layers lit by a beam, with or without a surface, for the first two Fourier components and every parameter on which any of the layers, the beam or the surface depend, the derivatives that XRTM_SOLVER_TWO_STREAM reports at every output level are the derivatives of the upward and downward radiances that it reports there, which are differentiable; at a depth inside a layer they are the derivatives along depths that keep their share of the layer. Where no derivative is marked the contents of the work arrays do not matter. Exceptions: at depths in a layer of thickness zero there is a division of zero by zero; without a beam the derivatives with respect to a parameter on which a layer depends are computed from variables that were never set.", "quantifier": "all numbers of layers, inputs and derivatives of inputs, marks of the layers and of the beam, output levels and depths, contents of unwritten work arrays", "why_tests_cant": "a comparison with finite differences samples a few inputs and marks, to within truncation; the equality has to hold for every combination of marked layers", "anchors": ["src/xrtm_two_stream.c: rtm_two_stream", "src/xrtm_derivs.h: derivs_data"]}
{"id": "C56", "title": "At output directions other than its streams the two-stream solver reports the light of the equation of transfer", "statement": "For every number of layers, with or without a beam and a surface, for the first two Fourier components and any number of output directions, the radiances that XRTM_SOLVER_TWO_STREAM with XRTM_OPTION_SFI reports in each direction, upward and downward, at every level of an increasing list, are those of the one solution of the equation of transfer in which the directions are further streams of weight zero, with single scattering left out if it is corrected elsewhere. At depths within layers (XRTM_OPTION_OUTPUT_AT_TAUS), where the code confuses the flux of the beam with the number of directions, this is so if the two are the same number, and downward unless the only output is at the very top; otherwise the result has the error of the wrong flux between the output and the boundary of its layer. Exceptions: at depths, a flux that exceeds the number of directions by one or more, or one of -1 or less, takes the code beyond its arrays, and with a smaller flux it writes nothing for the last directions; a single output at the top is read beyond the list of outputs. At levels and depths, a direction that equals that of the beam in the first layer, or that decays as the diffuse light does, gives zero divided by zero.", "quantifier": "all numbers of layers, output directions and outputs, all inputs of the layers, beam and surface, all increasing levels and descending depths", "why_tests_cant": "the integrals over the layers have to agree with a continuous solution for every list of directions, levels and depths; a test with one direction and unit flux, the usual case, hides the confusion of arguments", "anchors": ["src/xrtm_two_stream.c: rtm_two_stream, sfi, sfi_layer", "src/xrtm_interface.c: xrtm_set_out_thetas, xrtm_set_out_taus, xrtm_set_F_0"]}
{"id": "C57", "title": "The derivatives of the two-stream solver at output directions are those of its radiances there", "statement": "For every number of layers, with a beam and with or without a surface, for the first two Fourier components, every direction and every increasing list of output levels, the derivatives that XRTM_SOLVER_TWO_STREAM with XRTM_OPTION_SFI and XRTM_OPTION_CALC_DERIVS reports with respect to a parameter are the derivatives of the radiances it reports, upward and downward, provided that in layers that do not depend on the parameter the beam keeps its slant, as in a plane-parallel atmosphere. Exceptions: if the slant changes in such a layer, as in a spherical atmosphere (XRTM_OPTION_PSA), the derivative lacks the changes of the shares of sunlight scattered in such layers that reach their boundaries, attenuated on the way to the output, and nothing else; a layer without thickness that depends on the parameter gives zero divided by zero.", "quantifier": "all numbers of layers, directions and outputs, all differentiable families of inputs, all increasing levels, all markings of layers and beam", "why_tests_cant": "a derivative is a limit over all small changes of the inputs, and which terms are added depends on marks for each layer; tests with plane-parallel atmospheres or with every layer marked never meet the missing term", "anchors": ["src/xrtm_two_stream.c: rtm_two_stream, sfi, sfi_layer", "src/xrtm_interface.c: xrtm_set_ltau_l_11, xrtm_set_omega_l_11, xrtm_set_out_thetas"]}
{"id": "C58", "title": "Successive orders of scattering are added up as they should, with four named exceptions", "statement": "For the solver by successive orders of scattering every layer is cut in the least number of equal parts not thicker than the given limit (one more at exact multiples), and the upward radiance reported at the top and the downward radiance reported at the surface are the sums of the first K orders of scattering in the atmosphere of these thin layers, whose source of light is constant at the mean of its values at both ends. K is the number of orders asked for unless an order after the first is below the tolerance at both boundaries; the first such order is the last one added. The sum is the light that the beam and the sum of one order less bring forth. When nothing enters at the top and at most the part rho of the light goes on at each scattering or reflection, the reported radiance differs from the whole light by at most rho^K times its largest value. Exceptions: light that enters at the top enters once more at every order; the downward radiance at the top and the upward radiance at the surface are always reported as zero; negative radiances of the azimuthal components after the zeroth count as below any tolerance, so that the series ends after two orders however large the third is.", "quantifier": "all numbers of layers, streams, Stokes components and orders; all optical properties, phase functions, surfaces, boundary light, thickness limits above zero and tolerances; all real numbers (rounding not modelled)", "why_tests_cant": "The sum depends on the whole profile and on a loop whose length is decided by the data; a test compares a few sums with another solver within a tolerance that hides both a missing order and light counted twice.", "anchors": ["src/xrtm_sos.c: rtm_sos", "src/xrtm_model.c: fourier_get_bvp (call of rtm_sos)", "src/xrtm_interface.c: xrtm_set_sos_params, xrtm_radiance"]}
{"id": "C59", "title": "The derivatives by successive orders are those of the reported radiances, away from jumps in the number of parts", "statement": "With derivatives the solver by successive orders of scattering reports, for every parameter on which layers, surface, beam transmittance or boundary light depend differentiably, exactly the derivatives of the four boundary radiances that it reports, and these radiances are computed for all nearby values of the parameter too. This holds while no layer is exactly as thick as a whole multiple of the thickness limit and no order after the first has, where the light leaves, a component exactly equal to the tolerance. Exception: where a layer is as thick as the limit the number of parts into which it is cut jumps, the reported radiance is not continuous in the thickness, and the reported derivative is the derivative of nothing.", "quantifier": "all numbers of layers, streams, Stokes components and orders; all optical properties and their derivatives, phase functions, surfaces, boundary light, thickness limits above zero and tolerances; every choice of the layers that depend on the parameter; all real numbers (rounding not modelled)", "why_tests_cant": "A test compares with finite differences at a few points, within a tolerance that hides a missing small term, and never at the thicknesses at which the radiance jumps.", "anchors": ["src/xrtm_sos.c: rtm_sos", "src/xrtm_model.c: fourier_get_bvp (call of rtm_sos)", "src/xrtm_interface.c: xrtm_set_sos_params, xrtm_radiance"]}
{"id": "C60", "title": "Radiances by successive orders are not negative, grow with the orders, stay below the whole light and go with the unit of light", "statement": "When no optical property, phase function, surface reflection or boundary light given to the solver by successive orders of scattering is negative, none of the four radiances it reports at the boundaries is negative, and asking for more orders or for a lower tolerance never makes a reported radiance smaller. When moreover nothing enters at the top, the reported radiances never exceed those of the whole light. With c times the beam, the light from the top and from the surface, and c times the tolerance, for any c above zero and any (also negative) inputs, the solver succeeds on the same inputs and reports exactly c times the radiances. Exception: the tolerance is absolute, so that with c times the light at the same tolerance the reported radiances may be more than c times as large.", "quantifier": "all numbers of layers, streams, Stokes components and orders; all optical properties, phase functions, surfaces, boundary light, thickness limits above zero, tolerances and factors c above zero; all real numbers (rounding not modelled)", "why_tests_cant": "The order at which the series ends depends on all data; a test sees that a few radiances are positive or proportional, not that no profile, number of orders or tolerance makes them otherwise.", "anchors": ["src/xrtm_sos.c: rtm_sos", "src/xrtm_interface.c: xrtm_set_sos_params, xrtm_set_F_iso_top, xrtm_set_F_0, xrtm_radiance"]}
{"id": "C61", "title": "The solver by two orders of scattering reports the light scattered exactly twice, upward at the top, and nothing else", "statement": "In a plane-parallel atmosphere, with positive cosines and layers of any thickness not negative, the solver by two orders of scattering always succeeds, and the upward radiance it reports at the top, at the streams or, when output directions are given, at these, is exactly that of any light field obeying the equations of transfer for light that is scattered exactly twice: the beam is scattered once (in a layer or by the surface) into the streams, that light is scattered once more into the output directions, and nothing enters otherwise. The light scattered once is not part of the result, and all other reported boundary radiances are zero. Exceptions: when the slant of the beam in a layer is not that at the top (spherical atmospheres), one of the contributions is weighted with the slant of the layer and the other with that at the top, so the result is not the light scattered twice; and without polarization the solver uses the phase matrix of the other hemisphere, which must be the same.", "quantifier": "all numbers of layers, streams, Stokes components and output directions; all optical properties, phase functions, surfaces, thicknesses and positive cosines, including coinciding ones; all real numbers (rounding not modelled)", "why_tests_cant": "The result is a closed form with separate branches where cosines coincide, added up over the layers; a test compares a few profiles with another solver that also counts other orders of light, and cannot show that every profile gives precisely the second order.", "anchors": ["src/xrtm_two_os.c: rtm_two_os", "src/xrtm_model.c: call of rtm_two_os", "src/xrtm_interface.c: xrtm_radiance"]}
