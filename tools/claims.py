#!/usr/bin/env python3
"""Writes MANIFEST.json and checks that every theorem named exists."""
import json, re, glob, os
root = os.path.dirname(os.path.dirname(os.path.abspath(__file__)))
C = []
def claim(prop, status, theorems, note):
    C.append(dict(property=prop, status=status, theorems=theorems.split(), note=note))

claim("C01", "proved", "mesh_constructible mesh_rank_position_bijection mesh_rank_lexicographic",
      "Any dimension D, any positive dimensions; int has no overflow.")
claim("C02", "proved", "mesh_iterator_visits_all_in_order",
      "Exact number of iterations and exact sequence of (rank, position).")
claim("C03", "proved", "mesh_iterator_fortran_visits_all",
      "Sequence of positions, agreement of rank with Mesh::rank, coverage.")
claim("C04", "proved", "mesh_shift_coordinate mesh_shift_position mesh_isInMesh_iff_no_shift",
      "All integers; truncating division modelled with Z.quot.")
claim("C05", "partial", "mesh_serialize_roundtrip_refuted mesh_serialize_never_restores",
      "The property is false of the code (Mesh.h 237-242 archives dimensions_[0] D times and never restores offsets and size).")
claim("C06", "proved", "polymer_plan_is_valid_order polymer_read_fuel_independent linear_polymer_is_tree",
      "All trees, all numberings and orientations.")
claim("C07", "proved", "polymer_signposts_route_everywhere",
      "Total correctness of makePaths and VertexIterator on all trees.")
claim("C08", "partial", "polymer_accepted_is_tree polymer_invalid_graph_hangs polymer_invalid_graph_rejected_refuted polymer_self_loop_rejected",
      "Rejection is false of the code: cyclic graphs hang in makePlan, out-of-range ids are out-of-bounds accesses. Proved: nothing invalid is ever accepted; self-loops are rejected; every other well-formed non-tree hangs.")
claim("C12", "proved", "r1d_block_mass_conserved r1d_pivots_sufficient r1d_domain_setters_valid r1d_spatialAverage_is_average r1d_Q_independent_of_propagator",
      "All geometries, architectures, fields; blocks at least half a target step long (shorter ones have no valid step, see C14), nonzero pivots (implied by ds*w > -2), Q nonzero.")
claim("C13", "proved", "tridiagonal_solve_correct tridiagonal_multiply_correct tridiagonal_solve_multiply_inverse tridiagonal_symmetric_overload tridiagonal_dominant_pivots",
      "Any size, any entries with nonzero pivots; diagonal dominance implies nonzero pivots.")
claim("C14", "partial", "rpc_discretization r1d_discretization_partial r1d_discretization_refuted r1d_discretization_short_blocks",
      "Holds for every periodic block; false for r1d blocks shorter than half the target step (ns = 1, division by zero).")
claim("C15", "partial", "species_calls_keep_ensemble_and_range species_setQ_consistent species_setters species_read_phi_in_range_refuted rpc_solvent_mean_concentration r1d_solvent_mean_concentration",
      "Everything is proved except that a closed species stays in [0,1]: readParameters does not test the range of phi (refuted); it holds whenever the initial phi is in range.")
claim("C09", "proved", "rpc_thread_block_mass rpc_block_mass_conserved fft_roundtrip",
      "All dimensions, meshes, kSq arrays, architectures and fields, with FFTW given by its mathematical definition; Q nonzero. With a mask the average is multiplied by the occupied fraction.")
claim("C10", "proved", "rpc_Q_independent_of_propagator r1d_Q_independent_of_propagator",
      "Both polymer models; also every interior contour point or bead.")
claim("C11", "proved", "rpc_bead_block_mass rpc_block_mass_conserved",
      "All architectures with at least one bead per block (the reader does not test nBead > 0).")
claim("C24", "partial", "inverse_missing_iff hasImplicitInverse_sound hasImplicitInverse_misses hasImplicitInverse_refuted hasImplicitInverse_wrong_on_every_mesh kgrid_weighted_sum kgrid_weighted_sum_coded kgrid_weighted_sum_refuted",
      "False of the code: off by one, the vectors with n - i = n/2 + 1 are missed on every mesh with n >= 3; the weighted sum is proved for the right predicate and refuted for the coded one.")
claim("C57", "proved", "rpc_uniform_fields",
      "All architectures (double counting over the vertices of the tree), both polymer models.")
claim("C16","proved","symm_product_is_composition symm_respects_lattice symm_wave_action_composes symm_inverse_correct symm_inverse_rejects symm_translations_normalized symm_normalize_correct symm_shiftOrigin_conjugates symm_group_laws symm_equal_iff_same_action","Every dimension for products, D=1,2,3 for inverses (the specializations that exist).")
claim("C17","partial","space_group_completion space_group_completion_terminates space_group_isValid_iff space_group_add_unique space_group_add_unique_refuted inversion_center_correct shiftOrigin_homomorphism","Completion returns exactly the generated group and terminates on finite groups, for normalized starting elements. add() of a symmetry read from file without normalization can insert a duplicate (refuted).")
claim("C18","partial","mesh_check_sound_partial mesh_check_sound_refuted","The divisibility loop starts at axis 1, so the first axis is never checked: refuted with a valid group; soundness proved for the other axes and, under the missing divisibility, for the first.")
claim("C19","proved","unit_cell_bases_dual unit_cell_volume_formula","All 13 lattice systems, all parameters with nonzero volume (rhombohedral: angle in the range where the vectors exist).")
claim("C20","partial","drBasis_correct_partial drBasis_correct_refuted oblique_drBasis_misplaced monoclinic_drBasis_negated rhombohedral_drBasis_negated dksq_correct_partial angle_dksq_negated dksq_correct_refuted","drBasis is the exact derivative for every parameter except the oblique second length and angle (written to the wrong vector), the monoclinic angle and the rhombohedral angle (wrong sign), all refuted; dksq is the exact derivative of ksq wherever drBasis is, for the others its value is given exactly.")
claim("C21","proved","replicate_multiplies_vectors replicate_succeeds_iff","All lattice systems, replica counts and parameters; also exactly which calls succeed.")
claim("C22","partial","param_id_roundtrip full_length_parameters full_angle_parameters_partial full_angle_parameters_refuted","Round trip and lengths hold for every lattice system, angles for all but alpha and beta of triclinic cells, whose parameters are the different angles phi and theta (refuted).")
claim("C58","partial","unit_cell_always_current unit_cell_always_current_refuted","Holds for every sequence of operations without serialize(); loading from an archive replaces the parameters without recomputing the vectors (refuted).")
claim("C23","partial","shiftToMinimum_image shiftToMinimum_minimal_partial shiftToMinimum_exact shiftToMinimum_1d shiftToMinimum_orthogonal shiftToMinimum_minimal_refuted shiftToMinimum_stable_refuted","Image of v always; norm minimal over the candidates up to 5^D tolerances, exactly minimal (and lexicographically last) when distinct norms differ by more than the tolerance; exact minimum over all images and stable in one dimension and for orthogonal vectors. Minimality up to one absolute tolerance is refuted for large cells, stability for vectors far outside the first cell.")
claim("C35","proved","interaction_xi_recovered interaction_roundtrip interaction_c_sums_to_one interaction_fields_recovered interaction_fHelmholtz_gradient interaction_dWdC setChi_current setChi_value","Any number of monomer types; for two types the inverse is the one computed by the code (C36), otherwise the GSL inverse is assumed to be an inverse.")
claim("C36","partial","singular_chi_detected_partial singular_chi_detected_refuted singular_chi_detected_double_refuted","Every nonzero singular symmetric matrix is detected; the zero matrix is not (refuted over the reals extended by NaN, and with IEEE doubles, where also underflow of the determinant gives infinite elements).")
claim("C37","proved","residual_basis_zero_iff residual_basis_zero_iff_canonical residual_grid_zero_iff residual_grid_zero_iff_canonical residual_r1d_zero_iff residual_nr_zero_iff residual_nr_zero_iff_canonical stress_residual_zero_iff ambd_projector binary_relax_zero_iff_partial binary_relax_zero_iff_refuted binary_relax_direction","All Anderson mixing iterators and the Newton-Raphson iterator, both ensembles, with mask and external field. Beyond the claim: the binary relaxation iterator ignores the diagonal of chi, so its residual is right only for zero diagonal.")
claim("C38","partial","C38_inner_product_matrix C38_trial_minimises_residual C38_continuation_stale_coefficients_refuted","Matrix, right-hand side and minimality proved for every iteration after the first of every solve, from every reachable state of the iterator, over exact real arithmetic with a non-finite value; LU solver assumed to solve nonsingular systems. Refuted for the first iteration of a continuation: the coefficients of the previous solve are reused, so the trial is not a stationary point (double-precision example).")
claim("C39","partial","C39_solve_result C39_success_any_arithmetic C39_infinite_residual_escapes_refuted","Proved for exact real arithmetic with a non-finite value and, for the meaning of return value 0, for any arithmetic. Refuted in double precision for failure: two successive infinite residuals make an inner product outside the try block throw, so solve raises an exception instead of returning 1.")
claim("C40","partial","C40_sweep_steps C40_ends_at_one_refuted","Proved for every sequence of solver outcomes and every positive ns over exact arithmetic: start at 0, increasing, bounded by 1.0000001, halving only after failure, step never below a tenth without exception, exception only after a failed solve; ends at exactly 1 if ns < 1250000. The bound is needed: with ns = 10^7 the sweep ends at 1.0000001 (refuted).")
claim("C41","partial","C41_terminates C41_negative_steps_refuted C41_zero_steps_refuted","Terminates within 9 ns + 3 attempts for every ns >= 1; readParameters accepts negative ns and 0, for which the loop can run for ever (refuted; ns = 0 in double precision).")
claim("C42","proved","C42_extrapolation_exact C42_cell_extrapolation C42_sweep_extrapolation","Lagrange coefficients exact for all polynomials of degree below the history size, for distinct contour values; in every sweep the stored values are distinct and are the most recent accepted ones.")
claim("C43","partial","C43_cell_transferred_partial C43_partly_flexible_refuted","Transfer holds if every parameter changed (or in the first extrapolation); the flag is cleared by the first unchanged parameter, so a partly flexible cell keeps its old parameters (refuted).")
claim("C46","partial","C46_unaccepted_restores C46_sequences C46_failed_step_restores C46_cc_refuted","Rejected and failed Monte Carlo moves and failed Brownian steps restore fields, components, Hamiltonian and derivatives, in any sequence; cc_ is left stale with hasCc_ true after a rejected force-bias move when needsCc is false (refuted).")
claim("C47","proved","C47_proposal C47_weight C47_inverse C47_detailed_balance C47_move","Force-bias proposal density, acceptance weight and reverse move; detailed balance between the Gaussian proposals on a partially saddle-point compressed field.")
claim("C48","proved","C48_eigenvectors C48_displacement C48_components_complete C48_compressors C48_accepted_moves C48_brownian_steps","analyzeChi (with the eigensolver by its specification), displacements along eigenvectors, compressors touch only the pressure field.")
claim("C49","partial","C49_mc_without_ramp C49_bd_without_ramp C49_ramp_refuted C49_gradient C49_guards","Without a ramp Hamiltonian and derivatives always belong to the current fields and parameters; with a ramp the Hamiltonian of the preceding parameter values is used in the next acceptance test (refuted). The derivatives are the gradient of the Hamiltonian.")
claim("C50","partial","C50_ramp C50_ramp_words C50_sweep_words C50_r1d_sweep_words C50_vmonomer_refuted C50_sweep C50_r1d_sweep C50_r1d_cell_refuted","Round trip of the text of ramp and sweep parameters for all types, including specialized ones, except v_monomer of ramps (written as vMonomer, refuted) and cell_param of one-dimensional sweeps (type() throws, refuted). Streams are token lists; formatting of numbers is not modelled.")
claim("C51","partial","C51_mc C51_bd C51_bd_no_analyzers C51_mc_no_analyzers_refuted C51_analyze C51_analyze_base_refuted","Sampling schedule of Monte Carlo and Brownian dynamics simulations for all outcomes of the moves; a Monte Carlo simulation without an AnalyzerManager block always throws (refuted), and so does analyze with baseInterval above one (refuted).")
claim("C29","partial","wfields_any_order_when_allocated wfields_fresh_accepts_iff mask_any_order symmetrize_consistent wfields_any_order_refuted failed_setBasis_consistent_refuted dishonest_setRGrid_consistent_refuted","With both representations allocated any sequence of setters succeeds and both representations agree; for an unallocated container the accepted sequences are characterised exactly (symmetric data are refused after asymmetric data: refuted). A setter that throws half way, or a wrong isSymmetric argument, leaves the representations inconsistent (refuted).")
claim("C30","partial","c_fields_current c_fields_after_clear_refuted c_fields_after_exception_refuted","For all sequences of operations that return normally, other than clear() on a container: reported c fields come from a compute after which w, h, mask and cell are unchanged and are those of the current state. clear() does not notify, and a setter that throws has changed fields without notification (refuted).")
claim("C31","partial","current_since_compute thermo_current_without_parameter_changes thermo_after_parameter_change_refuted c_fields_after_setKuhn_refuted thermo_after_clear_refuted","After any history, everything reported since a compute is current until a parameter is modified or a container cleared; parameter modifications notify nobody (refuted).")
claim("C32","partial","current_since_compute compute_stress_fresh stress_after_new_w_refuted stress_after_new_cell_refuted stress_undefined_refuted","While c fields are reported, computeStress gives the stress of the current state. Without, it returns normally with stale or mixed values, or reads unset memory (refuted).")
claim("C33","partial","readCommands_exact readCommands_all runScript_log all_commands_executed_refuted integer_arguments_checked_refuted command_arguments other_words further_arguments","Exact: all complete commands are executed in order, except an argument-less last command not followed by white space, which is lost (refuted).")
claim("C34","proved","model_fixed_after_lock lock_cases thread_xor_bead model_text readSystem_model readSystem_calls","For all call sequences.")
claim("C52","proved","C52_setBasis C52_error C52_roundtrip C52_component C52_shapes","Lossless change of monomer basis for any chi eigenvector matrix with the stated normalisation.")
claim("C53","partial","C53_no_recovery C53_success C53_monotone C53_ensembles C53_gauge C53_refuted","A step that increases the error is never followed by a successful one (refuted); success and monotone error are proved for all runs.")
claim("C54","partial","C54_dt_large C54_et_large C54_db_large C54_eb_large C54_et_small C54_dt_small_partial C54_bead_small_partial C54_dt_small_refuted C54_db_small_refuted C54_eb_small_refuted C54_dt_jump_refuted","Exact for large arguments; the small-argument branches of dt, db and eb are only first-order accurate (refuted) and dt jumps at the branch point.")
claim("C55","partial","C55_field C55_fields C55_complex_field C55_complex_fields C55_begin C55_symmetric C55_sizes C55_nan C55_unequal_sizes_refuted C55_basis_refuted C55_basis_mean_refuted","Full for fields of equal size; refuted for fields of different sizes and for basis comparison, which ignores component 0.")
claim("C56","partial","C56_composition C56_mu C56_free_energy C56_pressure C56_mu_derivative C56_jacobian C56_computePhi C56_inverse C56_polymer C56_polymer_bead C56_solvent C56_accepted_refuted C56_absent_refuted","Proved over the reals for all mixtures and any linear solver. Refuted: in doubles a valid composition can be refused, and an absent species gives a NaN free energy.")
claim("C26","proved","C26_layout C26_roundtrip C26_roundtrip_exact C26_single C26_read C26_nan_rejected C26_truncated_rejected C26_kgrid_roundtrip C26_mesh_dimensions C26_header C26_file C26_file_rejected","r-grid and k-grid field files: layout, round trip (rounded to the printed digits), rejection of truncated, non-finite and mismatched files, for any mesh and number of fields.")
claim("C27","partial","C27_replicate C27_replicate_rejected C27_replicate_file C27_expand C27_expand_rejected C27_expand_nonpositive_refuted","Replication and expansion are proved for all meshes and cells; expandRGridDimension accepts new dimensions that are not positive (refuted).")
claim("C25","proved","C25_fourier C25_roundtrip C25_inverse C25_makeBasis C25_star_order valid_good valid_conjugate makeBasis_good reduceLoop_ok","for every basis with the structure goodBasis; makeBasis_good and valid_good show that what makeBasis builds, and what isValid accepts with correct counts, has this structure; C25_inverse is the converse direction for symmetric real fields")
claim("C59","partial","C59_complete C59_stored C59_refuted","symmetric fields are accepted and accepted fields have consistent stored components; false in general: with inversion in the group a field odd under inversion passes for every tolerance, since implicit waves are not compared")
claim("C28","partial","C28_pairs_partial C28_refuted C28_cancelled C28_roundtrip C28_reversed valid_named valid_indexed","false of the code: the two checks that the second star is the partner are assignments, so the first star of one pair followed by the second star of another pair is accepted and stored under the wrong star (C28_refuted); all other checks on the second line are proved, with the round trip of written files and the conversion of reversed pairs")
claim("C44","partial","C44_mask_first_partial C44_external_first C44_roles C44_refuted","Holds if the mask generator comes first; with the external-field generator first reading always throws, even if it is the only one (refuted).")
claim("C45","partial","C45_partial C45_orthogonal_accepted C45_hexagonal C45_refuted C45_parameters C45_normalVecId_refuted C45_normalVecId_undefined C45_equal_thickness C45_unnoticed","The inner products are compared without absolute value, so obtuse angles (every 2D hexagonal lattice) are accepted (refuted); normalVecId = D is accepted and then indexes out of bounds (refuted); exact acceptance condition proved.")
claim("C60","partial","C60_generated C60_sweep_ignored C60_refuted C60_partial","A sweep sets the parameter of the generator directly, the environment is not marked for update and the fields stay (refuted). Through setParameter of the environment the claim holds.")
claim("C61","proved","C61_stress C61_film C61_excess","For all generators; the stress contributions themselves are the subject of C63.")
claim("C62","proved","C62_film_symmetric","On the level of the film environment with both generators.")
claim("C64","partial","C64_only_rigid C64_orthogonal_partial C64_refuted","False for triclinic cells with the first vector as normal, where the azimuth stays flexible and the polar angle becomes rigid (refuted); proved for all other cells.")
claim("C65","partial","C65_value C65_shift C65_response C65_solvents C65_homogeneous","Value of the reported free energy and pressure, independence of the representation of the fields (given that the basis is orthonormal), shift invariance, homogeneous limit and Hellmann-Feynman derivative. Species of volume fraction in (0,1e-8] and chi with 0<|chi|<=1e-9 are skipped by the code and excluded by a hypothesis; the response of the concentrations (derivative of ln q) is proved for solvents here and for polymers of the bead model in C66.")
claim("C63","partial","C63_mask C63_external C63_stress C63_others C63_modified C63_mean_refuted","C63_stress: the sum of the three contributions is the derivative of the free energy up to (p/P)(mean of the derivative of the mask - T/L^2), for any smooth family of solutions. The code uses T/L^2 for the change of the mean of the mask, which holds neither on the grid nor exactly in the continuum (C63_mean_refuted gives a film where the two differ by a factor of five). chi(0,j) of size up to 1e-6 are ignored by the code and excluded by a hypothesis. The response of polymer partition functions to the fields is a hypothesis (proved for solvents in C65_solvents, for polymers of beads in C66_polymers).")
claim("C66","partial","C66_polymer C66_polymers C66_stress C66_code C66_code_exact C66_polymer_refuted C66_lattice","Bead model, exact arithmetic. C66_polymer/C66_stress: with every wave of the half grid counted as often as in the full grid, concentrations and stress are the exact derivatives of ln q, and the stress that of the free energy along any path of solutions. The coded weights miss one copy of the waves with last index n-n/2-1 (C24): C66_code gives the deficit, C66_code_exact when it vanishes, C66_polymer_refuted a dimer on 4 points where the coded stress is wrong. C66_lattice combines this with dksq_correct_partial (not the parameters whose derivatives are wrong, C20). The thread model, where Simpson integration makes the stress approximate, is C70.")
claim("C67","proved","C67_reference_unique C67_propagators_converge C67_partition_function_converges C67_density_converges","Exact arithmetic. The reference is the modified diffusion equation on the grid, with the Laplacian of trigonometric interpolation on the full grid; the discretization error in space is not part of the claim. |k|^2 must be even on the full grid, as minimum images of exact lattices are; operators with other coefficients on the half grid do not compose. The concentrations need a reference partition function different from zero.")
claim("C68","partial","C68_fresh C68_available C68_derivatives C68_even C68_search_succeeds C68_even_refuted C68_images_depend_on_angle","Freshness, availability after a request, derivatives for cells with fixed angles and evenness are proved whenever the image search finds shortest images; the search is proved to succeed for 1D, square, cubic, hexagonal cells with equal numbers of points, and orthogonal cells with lengths spaced by more than the tolerance. The unconditional claim is false: on the mesh 3 x 48 of a hexagonal cell the search window of +-2 gives the inverse waves (1,24) and (2,24) different |k|^2, the first not minimal (C68_even_refuted). Not proved: success of the search for cells with variable angles.")
claim("C69","proved","C69_orbits C69_cancelled C69_coefficients C69_span C69_fields built4_built makeBasis_runs4","Hypotheses the code does not check itself are collected in the record built: the list of operations is a group with translations in [0,1) (SymmetryGroup::isValid tests it, C17), translations are multiples of 1/N with N at most 500 so that tolerances separate phases, the number of points along axis 0 is divisible by their denominators (checkMeshDimensions skips axis 0: mesh_check_sound_refuted), and shiftToMinimum returns an equivalent wave (C23). built4_built shows a group of four operations with a cancelled star meeting all of them.")
claim("C70","partial","C70_polymer C70_stress C70_code C70_code_exact C70_refuted","Thread model of rpc, exact arithmetic. C70_polymer: computed concentrations and stress give the derivative of ln Q of the continuous-chain theory up to C ds^4. C70_stress: the stress with every wave counted as in the full grid is within C ds^4 of the derivative of the exact free energy along any path of solutions; existence of that derivative is part of the theorem, that the concentrations are differentiable is assumed. The coded weights miss one copy of the waves with last index n-n/2-1 (C24): C70_code gives the limit of the coded stress, C70_code_exact when it is right, C70_refuted a polymer and a solvent on three points where the coded stress converges to half the derivative.")
claim("C71","partial","C71_sum_covered C71_sum C71_innerProduct C71_max C71_min C71_maxAbs C71_minAbs C71_minAbs_small C71_sum_refuted C71_independent_threads_refuted C71_nan_refuted","Small-step semantics of a block: threads interleave arbitrarily between barriers, the last warp runs in lockstep. Exact results for arrays of at most 2^24 elements and any accepted setting; minAbs needs at least half a block of elements. Refuted: sums of more than 2^24 elements drop the last ones (float rounding of the size), minAbs of shorter arrays reads out of bounds, independent thread scheduling gives wrong results, NaN is dropped by maxAbs.")
claim("C72","partial","C72_cover C72_shape C72_dimension_refuted C72_exception_refuted C72_setting_refuted","Proved for every state reached by calls that returned normally for meshes of one dimension D (the only use in the code). Refuted for calls of different D, after an exception, and after setThreadsPerBlock, where a stale configuration is reused; setThreadsPerBlock also accepts sizes above the limit of the device.")
claim("C73","partial","C73_images C73_fresh C73_same C73_near C73_same_refuted C73_lockstep_refuted C73_overflow_refuted C73_host_images_refuted C73_launch_refuted","Proved for all interleavings, orders of blocks, sizes and operation sequences, for waves whose image lengths differ by more than epsilon or not at all, block sizes that the device supports, and fewer than 2^31 threads; images and derivatives equal those of the CPU for orthogonal cells of any mesh and hexagonal cells with n1 < 2 n0. Refuted without these: on a 2 x 28 hexagonal mesh the GPU window is larger and finds shorter images than the CPU; without lockstep execution the 2D reduction can return a wrong image; kSize*128 overflows an int from 2^24 waves on; minImages_h uses an array that is never allocated, with a wrong stride; a refused launch is reported as success.")
claim("C74","partial","C74_kernel C74_slices C74_whole C74_misc C74_many C74_offset_refuted C74_many_refuted C74_in_place_refuted C74_pair_refuted C74_overlap_refuted C74_launch_refuted","All 74 kernels transcribed statement by statement, threads interleave between statements, memory is a map of words with unallocated and uninitialised words. Proved for slices with indices >= 0 whose outputs are separate from the other slices, or equal to an argument they may share. Refuted: negative first indices and, with more than two vectors, short arrays are not refused; complex mulVV, mulVS, expV in place and mulVVPair with b2 = a1 use overwritten words; overlapping slices race; wrappers in Block.tpp ignore refused launches. Exact arithmetic; division by zero excluded.")
claim("C75","partial","C75_compute C75_mass C75_stress C75_stress_undefined C75_bead_tail_refuted C75_solve_head_refuted","Proved of compute() for all trees, both models, all placements of arrays and all interleavings (C75_compute), and of computeStress() after it (C75_stress) if, for batched transforms in the bead model, the solution arrays hold defined numbers beforehand: the last slice of a propagator that ends the chain is never written (C75_bead_tail_refuted) and the batched transform reads it (C75_stress_undefined). solve(head) leaves the tail slice that tail() returns unset in the bead model (C75_solve_head_refuted). cuFFT is modelled by its definition over the real numbers.")
claim("C76","partial","C76_safe C76_exceptions C76_assignment C76_association C76_stale C76_tidy C76_mesh C76_propagator C76_copy_constructor_refuted C76_stale_refuted C76_dangling_refuted C76_overlap_refuted C76_copySlice_refuted C76_mesh_refuted","Proved for all programs that meet the preconditions of DevArraySpec.v (arrays outlive their slices, no copy constructor, no overlapping assignment, no negative first index): one owner per element, no use of memory that is not allocated, failed calls change nothing, assignments copy exactly. Programs that moreover deallocate only arrays without slices never terminate and never see a stale slice (C76_tidy); fields keep dimensions and capacity equal (C76_mesh) if allocate() is not called for a field with data; the arrays of a propagator are laid out correctly after any number of reallocations (C76_propagator). Without the preconditions the claims are false: the _refuted theorems.")
claim("C77","partial","C77_route C77_edges C77_edges_same C77_exact C77_bound C77_zero C77_positive C77_pairs_exist C77_exact_refuted","EdgeIterator and IntraCorrelation modelled over reals, one wavevector at a time. Route existence and uniqueness, the iterator, exactness at k = 0 and above the threshold, the error bound for all k, the k = 0 value and positivity are proved for all architectures, species and both chain models. Exactness for all k is false (C77_exact_refuted: small-argument branch of Debye::dt).")
claim("C78","partial","C78_response C78_step C78_newton_partial","Response of the bead-model mixture at a homogeneous state and the compressor correction. The response and the step are proved for all inputs; that the step is exactly the Newton step needs every nonzero k above the threshold of the Debye series (below it C78_step gives the factor S/S_code, with |S - S_code| <= 2e-5 of the k = 0 value). Thread model not covered: its solver is a discretisation whose response differs from the continuous Debye function.")
claim("C79","partial","C79_chi_partial C79_concentration C79_perturbation C79_hamiltonian C79_simulation C79_chi_diagonal_refuted C79_chi_perturbed_refuted","Concentration and lambda derivatives and the Hamiltonian terms are right for all states. ChiDerivative is right for a chi matrix without diagonal elements and without perturbation; it is not the derivative with diagonal elements (C79_chi_diagonal_refuted) nor, with an Einstein crystal perturbation, the derivative of the sampled Hamiltonian (C79_chi_perturbed_refuted).")
claim("C80","partial","C80_prefactor C80_prefactor_again C80_fourth_bounds C80_fourth_partial C80_fourth_1d C80_fourth_refuted C80_max C80_max_defined C80_structure C80_structure_value C80_batches C80_shell_partial C80_shell_refuted C80_tolerance_refuted C80_second_setup_refuted","MaxOrderParameter is proved in full (undefined exactly for a grid of one point). FourthOrderParameter is proved for every one-dimensional grid, in general if the minimum images of opposite wavevectors of the half grid are opposite, and within a factor 2 otherwise; the unconditional statement is refuted in two dimensions. BinaryStructureFactorGrid writes the mean over the half grid at well separated wavenumbers; this is the mean over the shell if its points have equal multiplicity, and the general statement is refuted. Device versions evaluate the same expressions and are not modelled separately.")
claim("C81","partial","C81_complex C81_complex_quotient C81_complex_product C81_complex_alias_refuted C81_complex_abs C81_vector C81_overlap_refuted C81_reduce C81_reduce_nan C81_reduce_nan_refuted C81_sum C81_inner","Proved for every function and every separate or identical argument, except that mul, square and div of complex numbers need a result apart from their arguments (refuted otherwise), that vector operations need identical or disjoint arrays (refuted for overlapping ones), and that the extrema report a NaN only if it is the first element (refuted otherwise; with any NaN later the result is proved to be the extremum of the numbers). Sums and inner products are exact and report every NaN. Arithmetic is exact; infinities are not modelled.")
claim("C82","partial","C82_parameters C82_ramp_end C82_between C82_setup C82_total C82_twice_refuted C82_chi_refuted C82_negative_refuted C82_end_refuted","Proved for every list in which no value of the system is governed by two entries: the values after setParameters, their independence of the state before, the sum of volume fractions, and that success at two path variables gives success between them. Refuted: lists that name a value twice are accepted, negative indices are not refused, and the last path variable of a sweep in double precision may exceed 1 and be rejected. Derived data (contour steps, inverse of chi, cached factors) is not in this model; a specialized parameter is taken to be a value of its own.")
claim("C83","partial","C83_read C83_read_sound C83_read_failed C83_short_refuted C83_write C83_roundtrip C83_remesh C83_remesh_keeps C83_remesh_same C83_remesh_read C83_extend C83_dimension_refuted","Proved for reading, writing, interpolation (new and old size at least 2) and extension. Reading is complete only if the stream has not failed: a file that ends within its last row is accepted and old values stay (C83_short_refuted; C83_read_failed shows that only the last row can be incomplete). The new size is not checked: one point gives two rows, a negative extension more rows than announced (C83_dimension_refuted). Exact arithmetic; text as tokens, printed numbers through an arbitrary function fmt. Not modelled: writeBlockCFields, writeVertexQ, file names.")
claim("C84","partial","C84_free_energy C84_uniform C84_shift C84_mode0 C84_mode12 C84_no_excess C84_solvents C84_solvents_refuted","Free energy, pressure, homogeneous limit and shift for all systems (species of volume fraction at most 1e-8 are left out by the code). The comparison is proved for at most one solvent in mode 0 and for none in modes 1 and 2; it is undefined otherwise, since the work arrays are set for polymers only and the output reads polymer(i) for all species (C84_solvents, C84_solvents_refuted). Exact arithmetic; formatting of the output is not modelled; that memory of a new array is indeterminate is taken from its use of new double[n] (src/util is not in the repository).")
claim("C85","partial","C85_success C85_last_point C85_descent C85_solution C85_newton C85_ensemble C85_nan_refuted C85_solvent_refuted","Success, descent and consistency are proved for numbers, for every linear solver; with an exact one and an affine residual two iterations suffice. Two parts of the statement are false of the code: the norm skips NaN, so that concentrations that are not numbers count as converged; and the test for the canonical ensemble looks at polymers only, so that with an open solvent the last grid point is not constrained. Infinities and rounding are not modelled.")
claim("C86","partial","C86_roundtrip C86_step_not_read C86_mesh_refuted C86_nan_refuted","The round trip is proved for finite values. Two parts are false of the code: the reader skips the line of mesh dimensions without comparing it, so that a 2x3 frame is read on a 3x2 mesh with other values; and a value that is not finite is written as a word that cannot be read. The step is not read either: analysis of a trajectory counts frames. The header (FieldIo.v) is left out; getNextLine, which is not in the repository, is taken to skip empty lines.")
#END
claims = {"claims": C}
names = set()
for f in glob.glob(root + "/rocq/theories/*.v"):
    names |= set(re.findall(r"^\s*(?:Theorem|Lemma|Corollary|Proposition|Fact|Remark)\s+([A-Za-z0-9_']+)", open(f).read(), re.M))
for c in C:
    for t in c["theorems"]:
        if t not in names: print("MISSING", c["property"], t)
props = [json.loads(l)["id"] for l in open(root + "/properties.jsonl")]
done = [c["property"] for c in C]
print("not claimed:", [p for p in props if p not in done])
json.dump(claims, open(root + "/MANIFEST.json", "w"), indent=1)
