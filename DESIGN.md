# Formal model of xrtm in Rocq: design

The code in `/repo` is C (the task metadata says cpp); it is read as text only and never
built.  Everything below is about the default build (no `DEBUG`, no `INCLUDE_DEV_SOURCE`,
no `USE_AD_FOR_TL_*`; `XRTM_SOLVERS_USE_G` is empty).

## Layout

* `rocq/theories/*Model.v`  definitions only, each with the file and lines it models
* `rocq/theories/*Spec.v`   small specifications that do not use the model's helpers
* `rocq/theories/*Proofs.v` (and `*Mat`, `*Join`, `*Loop`, `*Calls`, ...) lemmas
* `rocq/theories/*Properties.v` the theorems of `MANIFEST.json` with examples showing that their
  hypotheses can be met, and `Print Assumptions`
* `seeded/LOG.jsonl` wrong-program experiments
* `properties.jsonl` the property list; `MANIFEST.json` property -> theorem map
* `tools/` scripts that regenerate `MANIFEST.json`, the axiom list below and the log

## General modelling decisions

* C `int` arguments are `Z` (array positions `nat`); option, solver and dependency masks are
  `N`/`Z` with bitwise operations.  Overflow of `int` arithmetic on dimensions is not modelled.
* `double` appears in three ways.
  1. For the API state machine, output optical depths, Fourier convergence and the singularity
     adjustment: IEEE binary64, Coq's executable `SpecFloat` (`Dbl.v`), with rounding, signed
     zeros, infinities and NaN.  Order facts about rounded sums come through Flocq's proof that
     `SpecFloat` rounds correctly (`DblReal.v`).
  2. For numerical identities and derivatives: the reals `R` of the standard library; matrices
     are functions of two indices over `R`.  Rounding is not modelled there.
  3. For caches, stacks, the save tree and the reverse loop: values of arbitrary type and
     arbitrary computing functions, so the theorems hold for whatever the numerics compute.
* Undefined behaviour (access outside an array, use after free, double free, NULL dereference,
  read of uninitialised memory) is a distinct outcome, never a default value.
* `malloc` never fails.  stderr output is not modelled, except for the name of a missing input.
* LAPACK/BLAS and the vector helpers are outside the repository: products are modelled by their
  meaning, the linear solver is a parameter with the contract `AddingSpec.solver` (it solves
  every nonsingular system).
* If the natural property is false of the code, the property is stated with its exceptions by
  name and each exception has a theorem `..._refuted` with a witness.

## Per property: model and proof

| id | model | proof |
|----|-------|-------|
| C01 | `OptionsModel.check_options`, the ordered tests | case analysis on bits against a set-style specification |
| C02 | `OptionsModel.implicit_options` | bitwise reasoning, idempotence, minimality |
| C03 | `OptionsModel.check_counts` | case analysis, lia |
| C04 | `OptionsModel.check_solvers` with the argument lists in source order | induction on the varargs list; table specification |
| C05 | `OptionsModel.create_config` | composition of the above |
| C06 | `HandleModel`: setters and getters over a memory of typed cells | per-input lemmas plus frame lemmas, for every history |
| C07 | same; invariant over operation lists | induction on the history; NaN refuted |
| C08 | same | per-setter analysis of accepted and refused calls; four refutations |
| C09 | same | invariant: flag set iff value written |
| C10 | same, undefined outcome for accesses out of range | case analysis; getters without check refuted |
| C11 | `check_inputs_initialized`, `solution_preprocess` | ordered list of requirements as specification |
| C12 | allocation status of the flag arrays is part of the state | invariant over histories |
| C13 | same | invariant |
| C14-C18 | `CacheModel`: dependency masks per cache and layer, arbitrary compute functions | coherence invariant: a clean flag implies the cached value is the recomputed value |
| C19 | `UtausModel` over binary64 | loop invariants |
| C20, C21 | `DerivsModel` | induction on layers and arrays |
| C22 | `StackModel` | invariant of the greedy loop, measure for termination |
| C23, C24 | `FourierModel` | loop invariant; induction on streams |
| C25 | `NamesModel` | list laws by induction, table facts by computation over the whole table |
| C26 | `Solution2Model` | mixed radix arithmetic, loop invariant |
| C27 | `HandleModel.solution_2` | case analysis over histories |
| C28 | `HandleModel` over binary64 | loop invariant, rounding lemmas |
| C29 | `DeltaMModel` over R | field; `derivable_pt_lim`; transpose identity |
| C30 | `BeamModel` over R | induction on layers; derivative rules; transpose identity |
| C31 | `AddingModel` over matrices | elimination of the interface; noncommutative ring; derivatives |
| C32 | `SaveTreeModel` | simulation by a map from paths; collisions refuted |
| C33 | `AATreeModel` | structural induction |
| C34 | `DCListModel`, heap of nodes | representation invariant |
| C35 | `WorkModel` | disjointness invariant over call trees |
| C36 | `StackStoreModel` | invariant over plan updates and solutions |
| C37 | `DoublingModel` | induction on doublings over `AddingModel`'s join |
| C38 | `RadianceModel` | linear algebra; uniqueness of the field |
| C39 | `FdModel` | exactness on polynomials, limits, restored inputs |
| C40 | `FdSetModel` | simulation by a store of last accepted values |
| C41 | `BoundModel` | derivative rules, transpose identity |
| C42 | `SingleModel` | equation of transfer by differentiation and uniqueness |
| C43 | `SingleAdjModel` | transpose identity by a potential along the loops; gradient through C42 |
| C44 | `AddingAdjModel` | transpose identity for each code; induction down the saved stack; gradient through C31, C38 |
| C45 | `EigModel` | modes span the solutions; energy argument for the matrices inverted; uniqueness; `SpectralProofs`: the solver's matrix is self-adjoint and positive for the weighted inner product, so powers of it converge to a full set of eigenvectors |
| C46 | `EigDModel` | eigenvectors continued by a fixed point; bordered systems; product and quotient rules through every step |
| C47 | `AtmSpec` (the equation in all layers) over `EigModel`, `EigDModel`, `DerivsModel`, `RadianceModel` | each layer loses power unless nothing falls on it, so everything adding inverts is regular and the light is unique; C45, C46, C20 and C38 composed |
| C48 | `BvpModel` (band matrix, right hand side, output at levels and depths) | the band array holds the joining conditions; light solves the equation iff its coefficients solve the system; energy argument for its matrix; elimination (`GaussProofs`) shows that the contracts required of LAPACK can be met |
| C49 | `BvpDModel` (right hand side of the linearised system, derivatives at levels and depths) | smooth path of eigensystems (C46); the solution of a nonsingular smooth system is differentiable; its derivative solves the linearised system |
| C50 | `ScatModel` (Legendre polynomials and associated functions, scalar phase function, vectors and matrices of its Fourier components, adjoints, closed forms for few streams) | ladder relations of the associated functions by induction over the degree; addition theorem by induction; sums over every other coefficient |
| C51 | `BrdfModel` (kernels, their sums, Fourier components, adjoints) | domains of the square roots and inverse functions from the angles; each cell and azimuth is visited once per kernel; the work array of derivatives as an invariant of the loops |
| C52 | `FluxModel` (mean radiances and fluxes at the output levels) over C41, C45, C47, C50, C51 | derivative of the net flux from the equation of transfer; functions with the same derivative change by the same amount; joined at the levels by induction |
| C53 | `QuadModel` (points, rules, what a handle gets) | Christoffel-Darboux gives an inverse of the matrix of values, hence discrete orthogonality and exactness; roots by interlacing; the iteration contracts around a root |
| C54 | `TwoModel` (two-stream solver: layers, assignments to the dense matrix, right hand side, output at levels and depths) over C48, C50 | the columns of a layer as invariant of the assignments; each mode obeys the equation; the matrix is nonsingular because the light is unique (C48) |
| C55 | `TwoDModel` (derivatives of the two-stream solver: layers, right hand side, output) over C54 | closed form of a layer's values and their derivatives; the rows of the matrix as functions of the path; the derivative of the solution solves the differentiated system |
| C56 | `ViewModel` (two-stream solver at output directions: sfi, sfi_layer, light from the surface) over C54 | closed form of the integral over part of a layer obeys the equation; invariants of the sweeps up and down about which outputs are written; uniqueness layer by layer |
| C57 | `ViewDModel` (derivatives of the two-stream solver at output directions, at levels) over C55 and C56 | derivative of the closed form of the integral over a layer, term by term; invariants of the sweeps that carry the derivative of the light at each level |
| C58 | `SosModel` (the solver by successive orders, without derivatives) | relation between the light of one order and of the next stated on thin layers; invariant of the loop over the orders; linearity; bound of an order by induction over the layers |
| C59 | `SosDModel` (derivatives of the solver by successive orders) | derivative of each order by induction over layers and orders; the cut and the end of the loop are constant around the point; a jump shown by values on both sides |
| C60 | `SosModel` | an order of light that is not negative brings forth another; the number of orders added is determined by the tolerance and compared between two runs; linearity of each order |
| C61 | `TwoOsModel` (the solver by two orders of scattering, without derivatives) | the light of each order described by differential equations in each layer; solved by integrating factors, uniqueness from a zero derivative; induction over the layers from the surface up |
<!-- more -->

All properties in the list are expressed and proved for what is modelled; none is `_partial`.
Their statements in `properties.jsonl` are the qualified ones, that is with the exceptions that the
refutations show to be necessary.

## Refutations

Each of these is a fact about the code as modelled: a natural reading of the property fails, with
a witness checked by the kernel.  They are the theorems whose names end in `_refuted` in
`MANIFEST.json`.  The ones with the widest effect:

* C08: four setters store part of their input before they refuse the call.
* C10: getters without an index check read outside their arrays.
* C11: `xrtm_solution_2` switches derivatives off before it checks the inputs; C27: on failure they
  stay off.
* C14-C17: caches that survive a change of an input, of a derivative flag or of the solver.
* C29: the Legendre branch of the phase function and the asymmetry parameter use wrong indices.
* C31, C37, C38: thermal emission and several derivative branches.
* C32: different paths can share a block of the save tree.
* C39, C40: finite differences do not restore the inputs after an error; setters index unchecked.
* C48: output inside layers lacks the light that thermal emission adds.
* C50: a handle for zero coefficients is accepted and writes outside the arrays of the polynomials.
* C51: most surface kernels write no derivatives, so those read unwritten or stale memory; adjoints of surfaces other than Lambertian ones.
* C52: fluxes inside the atmosphere take the beam of another level, without solar sources an unset one, with polarization all Stokes components.
* C53: Lobatto's quadrature is accepted without being implemented; the iteration has fixed points that are no roots; the default rule is not exact for odd polynomials.
* C54: the root of a negative number for the second Fourier component with the doubled quadrature; division by zero at resonance; a singular matrix without absorption; a read past the end with one coefficient.
* C55: no derivative at depths in a layer without thickness; without a beam the derivatives are computed from variables that were never set.
* C56: at depths flux and number of directions are exchanged: beyond the arrays, or outputs that are never written; a single output at the top read beyond the list; division of zero by zero at resonance.
* C57: derivatives at output directions lack a term where the slant of the beam changes in a layer that is not marked; zero divided by zero in a marked layer without thickness.
* C58: successive orders count light that enters at the top once per order, report zero for the other two boundary radiances, and stop on negative light.
* C59: at a thickness equal to the limit the number of parts jumps, and the radiance with it: no derivative.
* C60: with more light at the same tolerance the radiances by successive orders are not as many times larger.
* C61: in a spherical atmosphere the solver by two orders of scattering weights one contribution with the slant of the layer and the other with that at the top.
* C49: derivatives inside a layer are taken at a fixed fraction of its thickness, not at a fixed depth; without a surface the
  derivative of the light from below is ignored.
* C45, C46: layers with zero albedo: thermal emission, derivative with respect to the albedo. C45: an output direction in resonance (no eigenbasis).
* C41, C43, C44: adjoints that lose, double or exchange a contribution.

## What is modelled and what is not

Modelled (file and lines are cited at each definition): the static checks, all setters, getters,
the readiness gate, solution entry points and destruction in `xrtm_interface.c` and
`xrtm_support.c`; flag arrays and derivative bookkeeping; result caches and their dependency
flags in `xrtm_model.c`; `update_utaus`; Fourier loop; delta-M scaling with adjoint; beam
parameters with adjoint, Chapman functions; boundary input with adjoint; adding and
radiances with adjoints; doubling; the real eigenvalue solver of a layer with derivatives
(`xrtm_eig_rts.c`, the branches that the default options take) and its boundary value form
(`xrtm_eig_bvp*.c`, the same branches, with derivatives); single scattering with adjoint; the scalar phase function and its
Fourier components with adjoints (`xrtm_scatter.c`, `rtutil_math.c`); the surface kernels and
their Fourier components with adjoints (`xrtm_brdf*.c`); mean radiances and fluxes; the Gauss-Legendre
quadratures; the solver by successive orders of scattering (`xrtm_sos.c`), with its derivatives; the solver by two orders of scattering (`xrtm_two_os.c`), without derivatives; the two-stream solver, with its derivatives, at its streams and at other directions, except derivatives at other directions within layers (`xrtm_two_stream.c`); stacks; save tree; work arrays; name tables;
finite-difference interface; the balanced tree and linked list in `misc/`.

Not modelled: vector (polarised) phase matrices, the complex and symmetric forms of the eigenvalue solver, Green's functions,
its adjoint (`xrtm_eig_rts_a.c`), the derivatives of the two-orders-of-scattering solver, the Pade, matrix exponential, four- and six-stream
solvers (`xrtm_pade_rts.c`, `xrtm_mem_bvp*.c`, `xrtm_two_os.c`,
`xrtm_four_stream.c`, `xrtm_six_stream.c`), source function integration (`xrtm_sfi*.c`), the language
interfaces in `interfaces/`, programs in `utils/`, `examples/`, `src2/`, memory exhaustion,
concurrency (a handle is used by one thread), and rounding in the theorems over `R`.  In
`CacheModel` these computations are arbitrary functions of the inputs they read.

## Trusted base

* The kernel of Coq 8.16.1 (and `coqchk` when used to re-check the compiled files).
* The translation from C by hand: every definition cites the lines it models.
* The contract of the external linear algebra (`AddingSpec.solver`, `AddingAdjSpec.tsolver`, `EigSpec.eigensolver`,
  `EigDSpec.normalised`, `BvpSpec.band_solver`), a hypothesis of the theorems
  that need it, not an axiom; `GaussProofs` exhibits routines that meet the part about linear systems.
* Axioms of the standard library, and no others: `sig_forall_dec`, `sig_not_dec`
  (ClassicalDedekindReals), `functional_extensionality_dep`, `classic` (Classical_Prop).
  No axiom, parameter or hypothesis is added by this development; libraries other than the standard
  library (Flocq, used for lemmas about rounding) bring none of their own.  A checker that reads
  compiled files also counts the constants that the standard library hides behind module types
  (`Rdefinitions.RbaseSymbolsImpl`, `RinvImpl`, `ssrunder.Under_rel`); they are defined there.

`Print Assumptions` lists for each theorem (written by `tools/gen_assumptions.py`):

<!-- assumptions: begin -->
* no axiom (closed under the global context): 151 theorems
  C01 check_options_exact; C02 created_mask, implicit_idempotent, implicit_minimal; C03 check_counts_exact; C04 check_solvers_exact, created_solvers_compatible, fewer_solvers_still_accepted; C05 create_dimensions, create_exact; C06 get_after_set, last_setter_decides, other_calls_keep_answers; C07 answers_in_documented_range, nan_accepted_refuted, phase_functions_normalised; C08 coef_partial_write_refuted, out_taus_partial_write_refuted, out_thetas_partial_write_refuted, refused_at_once_changes_nothing, rejected_setter_changes_nothing, theta_0_partial_write_refuted; C09 failed_coef_uninitialised_refuted, lambda_uninitialised_refuted, no_uninitialised_answer, unset_input_refused; C10 calls_stay_in_bounds, getter_index_refused, setter_index_refused, unchecked_getters_refuted; C11 accepted_means_specified, reports_first_missing, solution_2_ungated_refuted, specified_means_accepted; C12 destroy_frees_the_rest, freed_once, kernel_func_flags_leak_refuted, no_use_after_free; C13 once_ready_always_ready, solutions_keep_inputs; C14 derivatives_after_toggle_refuted, scaled_profile_current, scaled_properties_current, solution_after_toggle_refuted; C15 full_refresh_current, one_layer_change_refuted, partial_refresh_current; C16 flag_change_refuted, left_out_input_refuted, set_up_then_plain, solution_of_current_inputs; C17 failed_check_refuted, flag_change_refuted, layer_above_refuted, left_out_input_refuted, other_solver_refuted, saved_results_valid; C18 clear_forgets, next_solution; C19 nan_output_refuted; C20 adding_codes_exact, beam_exact, layers_exact, merge_defined, second_unions_refuted, sources_exact, stacks_exact, stays_in_bounds, thermal_exact, total_exact, union_codes_exact, unions_exact; C21 conjunction_always_false_refuted, copy_exact, row_summary, table_summary; C22 counts, fits_table, joined_from_adjacent, no_repeats, nothing_in_vain, planning_ends, runs_marked, single_layers_first; C23 fails_only_with_a_term, nan_masks_refuted, other_outputs_untested_refuted, stops_only_converged, stops_when_converged, sum_of_reported_terms, zero_tolerance; C24 expansion, reverse_expansion; C25 eigen_solver_names, empty_index_list_refuted, every_text_lists, index_list, input_messages, input_names_refuted, list_parsed, max_name_length, name_list_round_trip, name_list_text, names_mean_the_constants, names_round_trip, value_list_round_trip; C26 direction_selected, each_output_visited_once, failed_pass_spoils_later_outputs_refuted; C27 failure_drops_derivatives, failure_restores_refuted, success_restores; C32 block_large_enough_refuted, call_returns_to_the_path, calls_are_defined, different_names_share_a_block_refuted, different_paths_share_a_block_refuted, every_block_freed_once, first_retrieval_is_new, new_blocks_are_fresh, proxy_of_itself_refuted, same_path_same_block; C33 balanced, count_min_max, find_exact, insert_reports_new, sorted_and_complete; C34 front_of_empty_refuted, nothing_lost, ordered_insertion, sequences, sorting; C35 arrays_apart, bounded, callers_keep_theirs, freed, nothing_left, same_arrays_again, second_round_allocates_refuted, square_arrays_leak_refuted; C36 auxiliary_current, handed_over, matrices_current, one_plan, other_joint_refuted, owned_by_one_stack, update_twice_refuted; C40 coef_outside_refuted, coef_refused_refuted, levels_setter_refuted, setters
* `sig_forall_dec`: 2 theorems
  C31 never_exits; C40 delta_unset_refuted
* `functional_extensionality_dep`, `sig_forall_dec`: 54 theorems
  C24 reverse_is_adjoint; C26 derivatives_of_each_output; C28 other_node_refuted, refused_changes_refuted, small_node_refuted; C29 adjoint, asymmetry, asymmetry_derivatives, asymmetry_indices_refuted, correction_albedo, depths, derivatives, legendre_offdiagonal_refuted, levels, nothing_truncated, phase_function, ranges, two_solvers_refuted; C31 any_grouping, attenuated_sources_refuted, emission_above_refuted, emission_without_surface_refuted, operators_determined, pair_apart, pair_is_elimination; C38 boundary_radiances_refuted, emission_and_illumination_refuted, field_unique, illumination_from_below_refuted, layer_and_surface_emission_refuted, surface_emission_downwards_refuted; C39 backward_refuted, central_exact, central_refuted, central_restores_refuted, error_restores_refuted, forward_second_refuted, limits, one_sided_exact, other_outputs_refuted; C44 bottom_without_surface_refuted, emission_above_refuted; C45 eigenvalues_positive; C50 adjoint_single, adjoint_streams, adjoint_sun, derivatives; C53 converges, fuel, iteration, lobatto_refuted, root_ends; C54 doubled, normal
* `classic`, `sig_forall_dec`: 2 theorems
  C40 coefficients, history
* `functional_extensionality_dep`, `sig_forall_dec`, `sig_not_dec`: 98 theorems
  C30 adjoint, derivatives, layer_by_layer, plane_parallel; C31 above_surface_exact, all_layers_exact, from_above_exact, from_below_exact, handle_all_layers_exact, handle_faces_exact, handle_from_above_exact; C37 beam_derivs_refuted, cold_top_derivs_refuted, cold_top_refuted, emission_unpolarised_refuted, solar_derivs_exact, solar_exact, thermal_derivs_exact, thermal_exact, vector_emission_refuted; C38 both_ways_exact, both_ways_open_exact, bottom_up_exact, bottom_up_open_exact, handle_both_ways, handle_bottom_up, handle_top_down, top_down_exact, top_down_open_exact; C41 boundary_exact, derivs_exact, emission_derivs_refuted, reverse_emission_refuted, reverse_is_adjoint; C42 correction_derivs, down_derivs, fields_exist, fixed_depth_refuted, no_sun_refuted, up_derivs; C43 below_top_refuted, correction_down_adjoint, correction_entering_refuted, correction_up_adjoint, down_adjoint, down_gradient, entering_lost_refuted, no_sun_refuted, up_adjoint, up_gradient; C44 above_surface, all_layers, both_ways, both_ways_open_top, bottom_up, bottom_up_open, face, from_above, handle_both_ways, handle_bottom_up, pair; C45 answers, thermal_absorption_refuted; C46 eigensystem_differentiable; C48 inside_the_array; C49 inside_the_array; C50 conserves, few_streams, inside, no_coefficients_refuted, reciprocal, scatters, streams, sun; C52 divergence, fair, level_error_refuted, never_written_refuted, outputs, thermal_refuted, untouched, vector_refuted; C53 one_point, roots, spurious_refuted; C54 conservative_refuted, forward_refuted, isotropic_refuted, resonance_refuted; C55 dark_refuted, thin_refuted; C56 unwritten_refuted; C58 boundary_refuted, general, orders, top_refuted; C59 derivatives; C60 unit
* `classic`, `functional_extensionality_dep`, `sig_forall_dec`, `sig_not_dec`: 97 theorems
  C19 accepted_request_located, outputs_located; C28 albedo_below_one, angle_kept_away, conflict_refused, conflict_with_output_refused; C30 decreases, equal_top_levels_refuted, slant_factors, spherical_bounds, spherical_decrease_refuted; C37 thin_enough; C42 correction_down_exact, correction_up_exact, down_exact, up_exact; C45 layer_exact, layer_exact_weights, layer_unique, light_exists, light_unique, separable, separable_directions, separable_refuted; C46 layer_gradient, no_scattering_refuted; C47 adding_regular, both_ways, bottom_up, gradient, light_unique, top_down; C48 agrees_with_adding, depths, depths_are_levels, depths_thermal_refuted, levels, light_unique; C49 depths, fixed_depth_refuted, handle_levels, levels, no_surface_refuted; C51 adjoint_refuted, derivs_refuted, lambertian_albedo, li_reciprocity_refuted, matrix, matrix_adjoint, matrix_derivs, mixed_adjoint_refuted, reciprocal, stale_derivs_refuted, undefined_refuted, vector, vector_adjoint, vector_derivs; C52 budget, column, conserved, dissipates, inside_refuted, parallel_budget, spherical_refuted, surface; C53 doubled, flux_factor, hemisphere, kernel, normal, odd_refuted; C54 general, light, unique; C55 depths, levels; C56 depths, depths_flux, flux_refuted, levels, resonance_refuted, silent_refuted, top_refuted, unique; C57 general, levels, slant_refuted, thin_refuted; C58 error, stop_refuted; C59 jump_refuted; C60 below, grows, not_negative, unit_refuted; C61 second_order, spherical_refuted
<!-- assumptions: end -->
