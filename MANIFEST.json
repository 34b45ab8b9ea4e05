{
 "claims": [
  {
   "property": "C01",
   "status": "proved",
   "theorems": [
    "C01_distribute_partition",
    "C01_distribute_errors"
   ],
   "note": ""
  },
  {
   "property": "C02",
   "status": "proved",
   "theorems": [
    "C02_parallel_equals_serial"
   ],
   "note": ""
  },
  {
   "property": "C03",
   "status": "proved",
   "theorems": [
    "C03_matrix_grid"
   ],
   "note": ""
  },
  {
   "property": "C04",
   "status": "proved",
   "theorems": [
    "C04_root_of_nodes",
    "C04_bcast_safe",
    "C04_bcast_no_deadlock",
    "C04_bcast_terminates",
    "C04_node_bcast_safe",
    "C04_node_bcast_no_deadlock"
   ],
   "note": "Sequentially consistent shared memory and MPI's contract for Bcast and Barrier are assumed."
  },
  {
   "property": "C05",
   "status": "proved",
   "theorems": [
    "C05_buffer_last",
    "C05_buffer_none",
    "C05_buffer_unnamed"
   ],
   "note": "pickle.load inverts pickle.dump is a hypothesis."
  },
  {
   "property": "C06",
   "status": "partial",
   "theorems": [
    "C06_crash_refuted",
    "C06_crash_other_partial"
   ],
   "note": "Refuted: opening the file truncates it, so a kill right afterwards loses both objects and the next get raises EOFError. Proved: other buffers are unaffected."
  },
  {
   "property": "C07",
   "status": "proved",
   "theorems": [
    "C07_round_robin_partition",
    "C07_round_robin_sum"
   ],
   "note": ""
  },
  {
   "property": "C08",
   "status": "partial",
   "theorems": [
    "C08_sample_complete",
    "C08_sample_shared_refuted",
    "C08_sample_shared_safe_partial"
   ],
   "note": "Refuted for shared memory on one node with more processes than q points (early return without barrier). Proved: the distribution of q points is complete, and with at most as many processes as q points the shared array is complete for every schedule."
  },
  {
   "property": "C09",
   "status": "proved",
   "theorems": [
    "C09_first_match",
    "C09_none"
   ],
   "note": ""
  },
  {
   "property": "C10",
   "status": "proved",
   "theorems": [
    "C10_partition",
    "C10_components",
    "C10_docstring_refuted"
   ],
   "note": "Exact rational coordinates. The docstring's claim (maximum distance within a group) is refuted by C10_docstring_refuted; the property itself is proved."
  },
  {
   "property": "C11",
   "status": "partial",
   "theorems": [
    "C11_expand",
    "C11_plain",
    "C11_literals_refuted"
   ],
   "note": "Proved for every expression built from literal text and nested groups (any depth), with the order of elements, and for expressions without brackets. False for literal text like '<0>' (endless recursion), '<7>' (IndexError) and line breaks (text lost): C11_literals_refuted."
  },
  {
   "property": "C12",
   "status": "proved",
   "theorems": [
    "C12_trapezoid",
    "C12_total",
    "C12_affine",
    "C12_too_few"
   ],
   "note": "Exact rational arithmetic."
  },
  {
   "property": "C13",
   "status": "partial",
   "theorems": [
    "C13_round_trip_refuted",
    "C13_round_trip_partial",
    "C13_values"
   ],
   "note": "Refuted: the writer uses C order, the reader Fortran order, so data of a general grid comes back permuted. Proved: all values are read back completely and which permutation results. Number formatting is not modelled."
  },
  {
   "property": "C14",
   "status": "proved",
   "theorems": [
    "C14_round_trip",
    "C14_empty"
   ],
   "note": "For at least one lattice vector and orbital (others cannot be read, C14_empty). Number formatting is not modelled."
  },
  {
   "property": "C15",
   "status": "partial",
   "theorems": [
    "C15_api_refuted",
    "C15_command_line_partial"
   ],
   "note": "Refuted: a call with six coordinates raises SystemExit unless the interpreter has six command-line arguments, which then override the coordinates. Proved: the value computed from the command line."
  },
  {
   "property": "C16",
   "status": "proved",
   "theorems": [
    "C16_running",
    "C16_finished",
    "C16_silent"
   ],
   "note": ""
  },
  {
   "property": "C17",
   "status": "proved",
   "theorems": [
    "C17_cells",
    "C17_degenerate"
   ],
   "note": ""
  },
  {
   "property": "C18",
   "status": "proved",
   "theorems": [
    "C18_decomposition",
    "C18_unique"
   ],
   "note": ""
  },
  {
   "property": "C19",
   "status": "proved",
   "theorems": [
    "C19_images",
    "C19_terminates",
    "C19_equivalence"
   ],
   "note": ""
  },
  {
   "property": "C20",
   "status": "proved",
   "theorems": [
    "C20_irreducibles",
    "C20_unique",
    "C20_partition"
   ],
   "note": ""
  },
  {
   "property": "C21",
   "status": "proved",
   "theorems": [
    "C21_keeps",
    "C21_source",
    "C21_symmetric",
    "C21_irreducible",
    "C21_cartesian",
    "C21_gap_refuted"
   ],
   "note": "C21_gap_refuted shows that data violating the symmetry can stay incomplete. Exact arithmetic; the integer maps are derived from the Cartesian ones in C21_cartesian."
  },
  {
   "property": "C22",
   "status": "proved",
   "theorems": [
    "C22_stack",
    "C22_empty"
   ],
   "note": "Rational arithmetic; numpy.argsort's contract is a hypothesis (ties in any order)."
  },
  {
   "property": "C23",
   "status": "proved",
   "theorems": [
    "C23_reproduces",
    "C23_reproduces_1d",
    "C23_average",
    "C23_average_1d",
    "C23_bounds",
    "C23_affine",
    "C23_affine_1d",
    "C23_continuous",
    "C23_continuous_1d",
    "C23_periodic",
    "C23_period",
    "C23_period_1d",
    "C23_resize",
    "C23_resize_1d",
    "C23_resize_open",
    "C23_angle"
   ],
   "note": "Rational numbers instead of floats. numpy.argsort (used by stack for periodic values) enters via its contract. Continuity and translations are proved without the period argument, with which the stacking of values may jump."
  },
  {
   "property": "C24",
   "status": "proved",
   "theorems": [
    "C24_nearest",
    "C24_tolerance",
    "C24_class",
    "C24_large_shift_refuted"
   ],
   "note": "Rational shifts. For shifts of a third of the mesh or more the closest point can be missed (C24_large_shift_refuted)."
  },
  {
   "property": "C25",
   "status": "proved",
   "theorems": [
    "C25_two_dimensions",
    "C25_two_dimensions_weights",
    "C25_wigner",
    "C25_weights"
   ],
   "note": "Bond lengths are arbitrary rational-valued functions, so any lattice, positions and rounding are covered; bonds outside of the 2 nsc supercells per dimension are not searched by the code. C25_two_dimensions for zero tolerance."
  },
  {
   "property": "C26",
   "status": "proved",
   "theorems": [
    "C26_mesh_exact",
    "C26_mesh_exact_generic",
    "C26_undivided"
   ],
   "note": "Exact arithmetic; C26_mesh_exact over the complex numbers."
  },
  {
   "property": "C27",
   "status": "proved",
   "theorems": [
    "C27_segments",
    "C27_corners",
    "C27_abscissa",
    "C27_single_refuted"
   ],
   "note": "For moveG = 0, three-dimensional points given by coordinates and at least two points (for one, C27_single_refuted: the corner index 0 refers to an empty path). Any rounding function."
  },
  {
   "property": "C28",
   "status": "proved",
   "theorems": [
    "C28_reciprocals3",
    "C28_reciprocals2",
    "C28_unique",
    "C28_involutive",
    "C28_volume",
    "C28_coordinates",
    "C28_singular"
   ],
   "note": "numpy.linalg.inv's contract is a hypothesis."
  },
  {
   "property": "C29",
   "status": "partial",
   "theorems": [
    "C29_close",
    "C29_sound",
    "C29_complete_partial",
    "C29_out_of_plane_refuted",
    "C29_degenerate_refuted"
   ],
   "note": "Refuted: the squared length uses only two of the three coordinates (C29_out_of_plane_refuted) and every point is on a line of zero length (C29_degenerate_refuted). Proved: positive answers are right for lines of nonzero length; lines within a plane of constant third coordinate are decided correctly."
  },
  {
   "property": "C30",
   "status": "proved",
   "theorems": [
    "C30_mesh",
    "C30_unique",
    "C30_kpoints"
   ],
   "note": ""
  },
  {
   "property": "C31",
   "status": "partial",
   "theorems": [
    "C31_unchanged_partial",
    "C31_changed_refuted",
    "C31_twice_refuted"
   ],
   "note": "Refuted: in angstrom (default), the first element of the caller's celldm is multiplied by the Bohr radius at each call (C31_changed_refuted, C31_twice_refuted). Proved: no change for bohr=True or without celldm."
  },
  {
   "property": "C32",
   "status": "partial",
   "theorems": [
    "C32_coefficients",
    "C32_hamiltonian",
    "C32_sorted",
    "C32_vectors",
    "C32_threshold",
    "C32_symmetrized",
    "C32_symmetric",
    "C32_symmetric_already",
    "C32_idempotent_partial",
    "C32_idempotent_refuted",
    "C32_zero_model_refuted"
   ],
   "note": "Proved: coefficients, H(k), sorting, threshold, symmetrization. Refuted: idempotence (cancelling repetitions leave a zero matrix; C32_idempotent_partial covers the rest), and a model with zero hopping raises an exception afterwards (C32_zero_model_refuted). Exact arithmetic over any commutative ring with conjugation."
  },
  {
   "property": "C33",
   "status": "proved",
   "theorems": [
    "C33_hopping",
    "C33_bloch",
    "C33_sparse",
    "C33_repeated_refuted"
   ],
   "note": "For models without repeated lattice vectors, as stated; C33_repeated_refuted shows that repeated ones are lost."
  },
  {
   "property": "C34",
   "status": "partial",
   "theorems": [
    "C34_displaced",
    "C34_round_trip_partial",
    "C34_diagonal",
    "C34_round_trip_refuted"
   ],
   "note": "Refuted for supercells whose first cell is not the origin: the result is displaced by that cell (C34_displaced, full characterization). Exact if no cell precedes the origin, e.g. for positive multiples."
  },
  {
   "property": "C35",
   "status": "proved",
   "theorems": [
    "C35_order",
    "C35_back",
    "C35_error"
   ],
   "note": ""
  },
  {
   "property": "C36",
   "status": "proved",
   "theorems": [
    "C36_phase",
    "C36_hopping",
    "C36_back",
    "C36_hermitian",
    "C36_phase_factors"
   ],
   "note": "Exact arithmetic; e is any multiplicative phase function, C36_phase_factors provides exp(i k.R)."
  },
  {
   "property": "C37",
   "status": "proved",
   "theorems": [
    "C37_periodic",
    "C37_hermitian",
    "C37_hermitian_generic"
   ],
   "note": ""
  },
  {
   "property": "C38",
   "status": "proved",
   "theorems": [
    "C38_gradient",
    "C38_hermitian"
   ],
   "note": ""
  },
  {
   "property": "C39",
   "status": "partial",
   "theorems": [
    "C39_lookup",
    "C39_coefficient_partial",
    "C39_hamiltonian",
    "C39_empty_refuted",
    "C39_repeated_refuted"
   ],
   "note": "Refuted for a model without lattice vectors (IndexError) and, as to the coefficient of exp(i k.R), for repeated lattice vectors; proved otherwise."
  },
  {
   "property": "C40",
   "status": "proved",
   "theorems": [
    "C40_reproduces",
    "C40_dimensions"
   ],
   "note": "numpy.fft.ifftn's definition is modelled in exact arithmetic. For divide_ndegen=True (default)."
  },
  {
   "property": "C41",
   "status": "proved",
   "theorems": [
    "C41_roundtrip",
    "C41_read",
    "C41_wide_numbers_refuted",
    "C41_dimensions"
   ],
   "note": "Proved at the level of characters. Numbers that fill their column merge with the previous one: C41_wide_numbers_refuted shows that reading then fails or silently returns another lattice vector."
  },
  {
   "property": "C42",
   "status": "proved",
   "theorems": [
    "C42_fermi_dirac",
    "C42_fermi_dirac_clipped",
    "C42_gauss",
    "C42_marzari_vanderbilt",
    "C42_methfessel_paxton",
    "C42_methfessel_paxton_limit",
    "C42_double_fermi_dirac",
    "C42_two_fermi_dirac",
    "C42_lorentz",
    "C42_heaviside",
    "C42_names"
   ],
   "note": "Real arithmetic, real arguments; erf as the integral of the Gaussian. Fermi functions: exact for |x| < 709, deviation bounded by exp(-709) beyond; two_fermi_dirac and heaviside away from the jump at zero; Methfessel-Paxton up to order 49 (beyond 50, StopIteration)."
  },
  {
   "property": "C43",
   "status": "proved",
   "theorems": [
    "C43_fermi_dirac",
    "C43_gauss",
    "C43_lorentz",
    "C43_heaviside",
    "C43_double_fermi_dirac",
    "C43_two_fermi_dirac",
    "C43_methfessel_paxton",
    "C43_marzari_vanderbilt",
    "C43_bose_einstein"
   ],
   "note": "Real arithmetic."
  },
  {
   "property": "C44",
   "status": "proved",
   "theorems": [
    "C44_fermi_dirac",
    "C44_gauss",
    "C44_marzari_vanderbilt",
    "C44_methfessel_paxton",
    "C44_double_fermi_dirac",
    "C44_two_fermi_dirac",
    "C44_heaviside"
   ],
   "note": "Real arithmetic; Methfessel-Paxton: first order, other orders raise NotImplementedError. lorentz has no entropy in the code."
  },
  {
   "property": "C45",
   "status": "proved",
   "theorems": [
    "C45_result",
    "C45_result_simple",
    "C45_fixed",
    "C45_guess",
    "C45_terminates",
    "C45_terminates_steps"
   ],
   "note": "Real arithmetic. Termination for the Fermi function is proved without clipping of arguments at 709, for Gaussian and Lorentzian smearing as is; termination of find_Fermi_level_simple depends on its damping parameter and is not claimed."
  },
  {
   "property": "C46",
   "status": "proved",
   "theorems": [
    "C46_poles",
    "C46_derivatives",
    "C46_symmetric",
    "C46_converges"
   ],
   "note": "Real arithmetic, real arguments."
  },
  {
   "property": "C47",
   "status": "proved",
   "theorems": [
    "C47_dos_processes_window",
    "C47_dos_sign",
    "C47_dos_infinite",
    "C47_dos_integral",
    "C47_dos_derivative"
   ],
   "note": "Real numbers in place of floats; energies as functions on the mesh; allreduce is the sum over processes."
  },
  {
   "property": "C48",
   "status": "proved",
   "theorems": [
    "C48_a2F_processes_window",
    "C48_a2F_constant",
    "C48_a2F_linear",
    "C48_a2F_bounds",
    "C48_a2F_integral"
   ],
   "note": "As C47. Where a triangle is flat at E, the result is infinite irrespective of the coupling."
  },
  {
   "property": "C49",
   "status": "proved",
   "theorems": [
    "C49_processes",
    "C49_intersections",
    "C49_result",
    "C49_nonnegative",
    "C49_support",
    "C49_translation_refuted"
   ],
   "note": "Rational numbers in place of floats. Support theorem under the hypothesis that different intersections are at least eps apart. Independence of the origin is refuted: intersections on the boundary of the cell are counted repeatedly (finding)."
  },
  {
   "property": "C50",
   "status": "proved",
   "theorems": [
    "C50_rows",
    "C50_rows_by_mean",
    "C50_greedy",
    "C50_disentangles",
    "C50_mean_refuted",
    "C50_mean_partial",
    "C50_map_dispersions"
   ],
   "note": "Rational numbers in place of floats. Rows are permutations, greedy choice, recovery of a true band connection, map_dispersions. That by_mean sorts by mean energy is refuted (the sum runs over pairs of points, finding) and proved only for bands that keep their position."
  },
  {
   "property": "C51",
   "status": "partial",
   "theorems": [
    "C51_energies",
    "C51_order_who",
    "C51_order_refuted",
    "C51_order_private"
   ],
   "note": "MPI machine as for C04; each array treated on its own. Energies agree everywhere. That the order agrees everywhere is refuted for shared memory (rank 0 rebinds the name, finding), with an exact statement of which processes are affected, and proved for private memory."
  },
  {
   "property": "C52",
   "status": "proved",
   "theorems": [
    "C52_sum_rule",
    "C52_idempotent",
    "C52_translation"
   ],
   "note": "C52_translation: in the model built from corrected force constants."
  },
  {
   "property": "C53",
   "status": "proved",
   "theorems": [
    "C53_neutral",
    "C53_shift",
    "C53_idempotent"
   ],
   "note": ""
  },
  {
   "property": "C54",
   "status": "proved",
   "theorems": [
    "C54_rules",
    "C54_closest",
    "C54_exact",
    "C54_symmetric",
    "C54_unchanged",
    "C54_open_set_refuted"
   ],
   "note": "Exact arithmetic in any ordered field. Condition: no residual norm of the Gram-Schmidt process lies in the open interval (0, eps); always met for eps = 0 (C54_exact). C54_open_set_refuted: if -R is missing for a lattice vector R, the last constraint is spoilt because the index of the missing vector is taken to be zero."
  },
  {
   "property": "C55",
   "status": "proved",
   "theorems": [
    "C55_acoustic",
    "C55_time_reversal",
    "C55_hermitian",
    "C55_hermitian_same"
   ],
   "note": "Exact arithmetic. Hermiticity of the self term holds up to a q-independent term (C55_hermitian_same)."
  },
  {
   "property": "C56",
   "status": "proved",
   "theorems": [
    "C56_norm",
    "C56_longitudinal",
    "C56_transverse"
   ],
   "note": ""
  },
  {
   "property": "C57",
   "status": "partial",
   "theorems": [
    "C57_formats",
    "C57_force_constants",
    "C57_dynamical_matrices_partial",
    "C57_dynamical_charges_refuted",
    "C57_lengths",
    "C57_conditions_refuted"
   ],
   "note": "Force-constants files round-trip completely (formats %g and %19.11E by contract). Dynamical-matrix files restore structure, q points, matrices and dielectric tensor, but effective charges are lost (headline not recognized), C57_dynamical_charges_refuted. Necessary conditions (symbols of at most two characters, one mass per symbol, both tensor and charges given, columns not merging) shown in C57_conditions_refuted."
  },
  {
   "property": "C58",
   "status": "partial",
   "theorems": [
    "C58_supercell",
    "C58_unit_cell_partial",
    "C58_round_trip",
    "C58_left_handed_refuted",
    "C58_order",
    "C58_shift",
    "C58_alias_refuted",
    "C58_standardize",
    "C58_standardize_sorted",
    "C58_symmetrize"
   ],
   "note": "Refuted: for left-handed supercells unit_cell returns lattice vectors of wrong sign (C58_left_handed_refuted), and shifting atoms of a unit cell moves those of the supercell it was taken from (C58_alias_refuted). The round trip is exact for positive multiples of the lattice vectors; in general up to the first cell. Dense branch; long-range terms not modelled."
  },
  {
   "property": "C59",
   "status": "proved",
   "theorems": [
    "C59_divide",
    "C59_multiply",
    "C59_back",
    "C59_symmetric",
    "C59_sgnsqrt"
   ],
   "note": ""
  },
  {
   "property": "C60",
   "status": "proved",
   "theorems": [
    "C60_mesh",
    "C60_back"
   ],
   "note": ""
  },
  {
   "property": "C61",
   "status": "partial",
   "theorems": [
    "C61_history",
    "C61_lookup",
    "C61_other_point",
    "C61_stale_refuted",
    "C61_asr_refuted"
   ],
   "note": "C61_history: for every history of calls of g (any points, any communicators, band or orbital basis) and standardize, and every communicator, the returned coupling is the lattice sum of the present data plus the long-range part in the requested basis. C61_other_point: in any state reachable by changing the data, if one of the calling processes cached another point. The full statement is false: asr, q2r and update_short_range change the data without invalidating the cached Fourier transform, so that g at the point of the last call still returns the old coupling (C61_stale_refuted, C61_asr_refuted)."
  },
  {
   "property": "C62",
   "status": "partial",
   "theorems": [
    "C62_same_coupling",
    "C62_lattice_vectors",
    "C62_threshold",
    "C62_symmetrized",
    "C62_succeeds_partial",
    "C62_fails_refuted"
   ],
   "note": "The coupling is unchanged for every model and every pair of points (C62_same_coupling), the lattice vectors are sorted and unique (C62_lattice_vectors), thresholds and symmetrization have the documented effect (C62_threshold, C62_symmetrized). It does not succeed for every model: line 627 compares with the number of the other lattice vectors, C62_fails_refuted characterizes exactly when a ValueError results; C62_succeeds_partial covers models whose second lattice vectors include the origin (and their negatives if symmetrized)."
  },
  {
   "property": "C63",
   "status": "partial",
   "theorems": [
    "C63_sum_rule",
    "C63_gamma",
    "C63_least_change",
    "C63_masses_refuted"
   ],
   "note": "C63_sum_rule, C63_gamma, C63_least_change: for every model, the stored elements (after division by the square roots of the masses, if divide_mass) fulfil the sum rule. The physical acoustic sum rule for different masses is not implied and even broken by asr if it held before (C63_masses_refuted)."
  },
  {
   "property": "C64",
   "status": "partial",
   "theorems": [
    "C64_roundtrip",
    "C64_roundtrip_divided",
    "C64_contents",
    "C64_interrupted",
    "C64_interrupted_refuted",
    "C64_standardized_refuted",
    "C64_long_range_refuted",
    "C64_first_row_refuted"
   ],
   "note": "Round trip proved for all models with and without degeneracies divided out, contents of the files, and rejection of incomplete files if degeneracies have been divided out. Refuted: incomplete degeneracies are accepted otherwise; models cannot be written after standardize unless divide_ndegen; with long-range terms and inconsistent divide_mass the masses are lost; degeneracies that depend on the second orbital are lost. Not modelled: binary Wigner-Seitz files (only read, never written)."
  },
  {
   "property": "C65",
   "status": "proved",
   "theorems": [
    "C65_centred",
    "C65_relative",
    "C65_unique",
    "C65_idempotent"
   ],
   "note": "Exact arithmetic."
  },
  {
   "property": "C66",
   "status": "partial",
   "theorems": [
    "C66_gradient",
    "C66_gradient_centred",
    "C66_components",
    "C66_hessian",
    "C66_smearings",
    "C66_sparse",
    "C66_components_refuted"
   ],
   "note": "Exact arithmetic; eigh and the search for the Fermi level are contracts (Gaussian and Fermi-Dirac smearing shown to be admissible); Gamma only. Proved: derivative of free_energy along every direction is jacobian times the direction with centre-of-mass motion removed, hence the components are the partial derivatives if the acoustic sum rule holds; refuted otherwise (finding). hessian is the derivative of jacobian along directions that keep the centre of mass, degenerate energies included; energies closer than eps but not degenerate are excluded. Sparse variants equal dense ones."
  },
  {
   "property": "C67",
   "status": "partial",
   "theorems": [
    "C67_argument",
    "C67_unchanged_iff",
    "C67_unchanged_refuted",
    "C67_own"
   ],
   "note": "Refuted: the caller's array is centred in place (finding). Proved: unchanged if and only if centred; no other array is touched; the result is that for the given displacements."
  },
  {
   "property": "C68",
   "status": "proved",
   "theorems": [
    "C68_formats",
    "C68_roundtrip",
    "C68_exact",
    "C68_other_reference",
    "C68_wrong_number",
    "C68_interrupted",
    "C68_interrupted_refuted",
    "C68_foreign_content_refuted"
   ],
   "note": "Proved at the level of characters for every history of to_xyz calls, structure and process count. Files cut within the last number are silently accepted (C68_interrupted_refuted); foreign content in front of appended frames makes reading fail."
  },
  {
   "property": "C69",
   "status": "partial",
   "theorems": [
    "C69_save_load",
    "C69_failing_save_refuted",
    "C69_sparse_driver_refuted",
    "C69_load_needs_complete_file"
   ],
   "note": "Save and load proved for drivers with full matrices when storing succeeds. Refuted for failing storage (communicators stay removed, interactive stays False) and for sparse drivers (AttributeError): findings."
  },
  {
   "property": "C70",
   "status": "proved",
   "theorems": [
    "C70_density",
    "C70_per_atom",
    "C70_per_atom_sum"
   ],
   "note": "Exact arithmetic; contracts for eigh and the search for the Fermi level."
  },
  {
   "property": "C71",
   "status": "partial",
   "theorems": [
    "C71_fourier",
    "C71_lookup",
    "C71_coefficient",
    "C71_standardize",
    "C71_sorted",
    "C71_vectors",
    "C71_threshold",
    "C71_supercell",
    "C71_bloch",
    "C71_repeated_refuted",
    "C71_zero_refuted",
    "C71_mesh_partial",
    "C71_mesh_refuted"
   ],
   "note": "W, WR, supercell and standardize proved for all models (supercell for distinct lattice vectors). Refuted: supercell of a model with repeated lattice vectors keeps only the last matrix; a model without interaction cannot be evaluated after standardize. A model read from a file agrees with the file on the mesh if lattice vectors are distinct modulo the mesh (C71_mesh_partial); otherwise later ones replace earlier ones (C71_mesh_refuted). Not proved: agreement off the mesh."
  },
  {
   "property": "C72",
   "status": "partial",
   "theorems": [
    "C72_dynamic",
    "C72_dynamic_symmetry",
    "C72_matsubara",
    "C72_polarization",
    "C72_polarization_opposite",
    "C72_polarization_compressibility",
    "C72_polarization_excluded",
    "C72_quotient",
    "C72_self_energy",
    "C72_self_energy_opposite",
    "C72_self_energy_contact",
    "C72_processes",
    "C72_susceptibility",
    "C72_susceptibility_refuted"
   ],
   "note": "Proved for polarization and phonon_self_energy (sign, Hermiticity, opposite momenta, compressibility, cRPA, contact term, degenerate limit, any number of processes). Refuted for susceptibility: for q != 0 degenerate terms contribute zero instead of the derivative (C72_susceptibility_refuted)."
  },
  {
   "property": "C73",
   "status": "partial",
   "theorems": [
    "C73_grand_potential",
    "C73_grand_potential_refuted",
    "C73_derivative",
    "C73_first_order_basis"
   ],
   "note": "Proved for all energies within 709 kT of the Fermi level, with derivatives (electron number and first-order diagram). Refuted below: because of the clipped exponent, the shortcut saturates (C73_grand_potential_refuted)."
  },
  {
   "property": "C74",
   "status": "proved",
   "theorems": [
    "C74_hamiltonians",
    "C74_dynamical_matrices",
    "C74_coulomb_interaction",
    "C74_acoustic_sum_rule",
    "C74_coupling_zero",
    "C74_coupling_hermitian",
    "C74_periodic"
   ],
   "note": "For arbitrary real parameters and wave vectors, including the tight-binding and force-constant matrices generated by rotations and reflections. The Coulomb interaction of graphene is covered as well. create is not modelled."
  },
  {
   "property": "C75",
   "status": "proved",
   "theorems": [
    "C75_averages"
   ],
   "note": "The double Fermi-surface average itself is an input of the model."
  },
  {
   "property": "C76",
   "status": "proved",
   "theorems": [
    "C76_mesh",
    "C76_average",
    "C76_missing_key"
   ],
   "note": ""
  },
  {
   "property": "C77",
   "status": "proved",
   "theorems": [
    "C77_complete_k",
    "C77_symmetries"
   ],
   "note": ""
  },
  {
   "property": "C78",
   "status": "proved",
   "theorems": [
    "C78_positive",
    "C78_linear",
    "C78_mustar",
    "C78_lamda",
    "C78_clamped_refuted"
   ],
   "note": "Without the corrections of Allen and Dynes; C78_clamped_refuted shows the effect of the lower bound."
  },
  {
   "property": "C79",
   "status": "proved",
   "theorems": [
    "C79_mesh",
    "C79_periodic",
    "C79_exact_refuted"
   ],
   "note": "Exact real arithmetic. The docstring (same value at mesh points) holds up to the threshold only: C79_exact_refuted."
  },
  {
   "property": "C80",
   "status": "proved",
   "theorems": [
    "C80_reproduces"
   ],
   "note": "Without asr; exact arithmetic; ifftn as defined by NumPy."
  },
  {
   "property": "C81",
   "status": "proved",
   "theorems": [
    "C81_reproduces"
   ],
   "note": "Exact arithmetic; ifftn as defined by NumPy."
  },
  {
   "property": "C82",
   "status": "proved",
   "theorems": [
    "C82_traditional",
    "C82_celldm",
    "C82_centered"
   ],
   "note": "Real arithmetic; hypotheses exclude square roots of negative numbers (NaN)."
  },
  {
   "property": "C83",
   "status": "proved",
   "theorems": [
    "C83_forces",
    "C83_force_constants",
    "C83_not_unscreened"
   ],
   "note": "Exact arithmetic; contract for the search for the Fermi level; Gamma only."
  },
  {
   "property": "C84",
   "status": "partial",
   "theorems": [
    "C84_density_density",
    "C84_special_case",
    "C84_no_interaction",
    "C84_general_refuted",
    "C84_general_band"
   ],
   "note": "Proved for density-density interactions. For general interactions renormalize_coupling_orbital never returns because of an operator precedence (C84_general_refuted); C84_general_band shows the intended result."
  },
  {
   "property": "C85",
   "status": "proved",
   "theorems": [
    "C85_causality"
   ],
   "note": ""
  },
  {
   "property": "C86",
   "status": "proved",
   "theorems": [
    "C86_direct",
    "C86_optical",
    "C86_even",
    "C86_frequencies"
   ],
   "note": ""
  },
  {
   "property": "C87",
   "status": "proved",
   "theorems": [
    "C87_average",
    "C87_denominator"
   ],
   "note": ""
  },
  {
   "property": "C88",
   "status": "proved",
   "theorems": [
    "C88_triangle",
    "C88_gauge",
    "C88_weight"
   ],
   "note": ""
  },
  {
   "property": "C89",
   "status": "partial",
   "theorems": [
    "C89_coefficient",
    "C89_bloch",
    "C89_sparse_partial",
    "C89_sparse_long_range_refuted",
    "C89_sparse_processes",
    "C89_repeated_refuted"
   ],
   "note": "Proved for models without repeated lattice vectors, which supercell would lose (C89_repeated_refuted). The sparse variant adds the long-range part once per process (C89_sparse_long_range_refuted, C89_sparse_processes); it is right for one process or without long-range part (C89_sparse_partial)."
  },
  {
   "property": "C90",
   "status": "proved",
   "theorems": [
    "C90_wedge",
    "C90_paths",
    "C90_mesh",
    "C90_symmetric",
    "C90_equal",
    "C90_disentangles",
    "C90_nosym"
   ],
   "note": "Eigensolver abstract: eigenvalues and eigenvectors at mesh points are inputs; rational arithmetic; final broadcast as in C04."
  },
  {
   "property": "C91",
   "status": "proved",
   "theorems": [
    "C91_weights",
    "C91_gauge",
    "C91_bloch",
    "C91_supercell",
    "C91_complete",
    "C91_mesh",
    "C91_blocks"
   ],
   "note": "Eigenvectors enter as unitary matrices (contract of numpy.linalg.eigh). The eigenstates of the folded Hamiltonian being Bloch states is C33_bloch."
  },
  {
   "property": "C92",
   "status": "partial",
   "theorems": [
    "C92_reproduces",
    "C92_again",
    "C92_workflow",
    "C92_update",
    "C92_resized_refuted",
    "C92_standardized",
    "C92_undivided"
   ],
   "note": "Exact arithmetic; numpy.fft.ifftn by its definition; bond lengths arbitrary rational numbers; divide_ndegen=True. Not true right after q2r if the number of lattice vectors has changed (ValueError) and at the point of the last call (C61)."
  },
  {
   "property": "C93",
   "status": "partial",
   "theorems": [
    "C93_sample",
    "C93_unique",
    "C93_nearest",
    "C93_processes",
    "C93_squared",
    "C93_total",
    "C93_gauge",
    "C93_transform",
    "C93_unchanged",
    "C93_unchanged_refuted"
   ],
   "note": "All proved except that transform with squared=True and neither U nor u overwrites the array it is given (C93_unchanged_refuted; C93_unchanged for all other cases)."
  },
  {
   "property": "C94",
   "status": "proved",
   "theorems": [
    "C94_nonnegative",
    "C94_modes",
    "C94_normalized"
   ],
   "note": "numpy.linalg.inv is a parameter that inverts every invertible matrix of the given size; floats are real numbers."
  },
  {
   "property": "C95",
   "status": "proved",
   "theorems": [
    "C95_formula",
    "C95_averages",
    "C95_nonnegative",
    "C95_masses",
    "C95_hopfield",
    "C95_unstable"
   ],
   "note": "Dense branch only; force constants and couplings are arguments; numpy.linalg.eigh is a parameter with its contract; floats are real numbers, the number of states at the Fermi level is assumed not to vanish (otherwise NumPy divides by zero)."
  },
  {
   "property": "C96",
   "status": "partial",
   "theorems": [
    "C96_orbital2band_partial",
    "C96_mismatch",
    "C96_mesh_refuted",
    "C96_large_refuted",
    "C96_dd",
    "C96_hermitian",
    "C96_gauge"
   ],
   "note": "Proved for meshes of at most 256 x 256 points with nk a multiple of nq. C96_mesh_refuted: if nk is not a multiple of nq, which is not checked, states at wrong momenta are used. C96_large_refuted: indices above 255 do not fit into the array of 8-bit integers (they are wrapped; newer NumPy raises an exception instead)."
  },
  {
   "property": "C97",
   "status": "proved",
   "theorems": [
    "C97_formula",
    "C97_positive",
    "C97_translation",
    "C97_units",
    "C97_quadratic"
   ],
   "note": "Floats are real numbers; the value of the Bohr radius is a parameter."
  },
  {
   "property": "C98",
   "status": "partial",
   "theorems": [
    "C98_converges",
    "C98_bounds",
    "C98_below",
    "C98_opposite",
    "C98_holes",
    "C98_real_refuted",
    "C98_susceptibility",
    "C98_self_energy",
    "C98_unit",
    "C98_memory"
   ],
   "note": "Limit, monotonicity, bounds, symmetry and equivalence of the implementations are proved. Refuted (C98_real_refuted): the susceptibility of real energies is complex, with an imaginary part that does not vanish with more frequencies."
  },
  {
   "property": "C99",
   "status": "partial",
   "theorems": [
    "C99_image",
    "C99_sector",
    "C99_box_partial",
    "C99_box_refuted",
    "C99_parallel",
    "C99_angle",
    "C99_outline_partial",
    "C99_outline_refuted"
   ],
   "note": "Proved for images at 60, 90 and 120 degrees in any orientation, with tightness of the box for 60 and 120 degrees and for 90 degrees without rotation, and for outlines at 60 and 120 degrees. Refuted: the box of a rotated square lattice cuts off corners of the zone (C99_box_refuted), and the outline of the square zone is twice too large (C99_outline_refuted)."
  },
  {
   "property": "C100",
   "status": "partial",
   "theorems": [
    "C100_corners_partial",
    "C100_corners_refuted",
    "C100_negative",
    "C100_distance",
    "C100_straight",
    "C100_mesh",
    "C100_shift",
    "C100_mesh_refuted",
    "C100_special"
   ],
   "note": "Corners for at least two points per reciprocal length (fewer: refuted, M is not on the path). Distances, straightness and mesh points without the degeneracy-lifting shift; with it, points differ by at most 4 pi 1e-10, so that the default path is not on the mesh (C100_mesh_refuted). Without straight, K is shifted twice since two names refer to one array; the bound covers this."
  },
  {
   "property": "C101",
   "status": "partial",
   "theorems": [
    "C101_preserved_partial",
    "C101_periodic",
    "C101_gamma",
    "C101_history",
    "C101_order",
    "C101_acoustic",
    "C101_preserved_refuted",
    "C101_cost"
   ],
   "note": "C101_preserved_partial gives the exact deviation on the mesh, C101_preserved_refuted shows that it need not vanish (truncated sum over reciprocal lattice vectors is not periodic); it vanishes at q = 0 and for periodic long-range terms."
  },
  {
   "property": "C102",
   "status": "partial",
   "theorems": [
    "C102_formats",
    "C102_ph",
    "C102_q2r",
    "C102_epw",
    "C102_pw",
    "C102_matdyn_partial",
    "C102_matdyn_refuted",
    "C102_again",
    "C102_units",
    "C102_list_refuted",
    "C102_string_refuted",
    "C102_endless_refuted"
   ],
   "note": "Proved for strings without quotes, backslashes, exclamation marks, newlines and placeholders, integers, truth values, floats whose repr the parser recognizes (contract float_ok, met by decimal notation), and lists of these where the format has indexed lists. Refuted for other strings, None, lists written as one value and, in matdyn.x inputs, strings with a slash. Indexed lists lose entries that count as false (kept). Masses are written with %.12g, of which only the result g12 is assumed to be read back. Hashes of names and the order of dictionary entries are not modelled."
  },
  {
   "property": "C103",
   "status": "partial",
   "theorems": [
    "C103_layout",
    "C103_same",
    "C103_elements",
    "C103_comment",
    "C103_word",
    "C103_fortran_refuted",
    "C103_quotes_refuted"
   ],
   "note": "Proved for all layouts with distinct names, strings without quotation marks, and words that do not begin with a parenthesis. Refuted for repetitions (3*0.5), doubled quotation marks, empty namelists in one line, and strings with the other kind of quotation mark."
  },
  {
   "property": "C104",
   "status": "partial",
   "theorems": [
    "C104_value",
    "C104_images",
    "C104_complete",
    "C104_model",
    "C104_square_refuted",
    "C104_choice_refuted"
   ],
   "note": "Proved for hexagonal lattices. Refuted for the square lattice (documented in the docstring): the irreducible points found by bravais.irreducibles do not suffice since the fourfold rotation is not used, so that part of the array stays uninitialized. Refuted for other choices of irreducible points at 60 degrees, which raise IndexError."
  },
  {
   "property": "C105",
   "status": "proved",
   "theorems": [
    "C105_sum",
    "C105_same",
    "C105_partition"
   ],
   "note": "for names of the documented form; a name that is not of this form is understood up to the first character that does not fit (C105_misspelled)"
  },
  {
   "property": "C106",
   "status": "partial",
   "theorems": [
    "C106_names",
    "C106_understood",
    "C106_distinct",
    "C106_digits_refuted"
   ],
   "note": "proved for species named after elements; C106_digits_refuted: with digits in the names of species (Ta, Ta1) names collide or are numbered twice, depending on the order of iteration over a set"
  },
  {
   "property": "C107",
   "status": "partial",
   "theorems": [
    "C107_electrons_partial",
    "C107_electrons_refuted",
    "C107_phonons_partial",
    "C107_phonons_refuted"
   ],
   "note": "Proved for steps that divide the mesh and for models without long-range terms (with them: exactly the surplus is stated); refuted otherwise. Writing the hr.dat file is C41."
  },
  {
   "property": "C108",
   "status": "partial",
   "theorems": [
    "C108_read",
    "C108_path",
    "C108_round_trip",
    "C108_exact",
    "C108_truncated",
    "C108_empty_refuted"
   ],
   "note": "All files with at least one k point are covered; files without k points can be written but not read (C108_empty_refuted). Formats are '%w.df' with positive d."
  },
  {
   "property": "C109",
   "status": "partial",
   "theorems": [
    "C109_local",
    "C109_local_dd",
    "C109_local_refuted",
    "C109_orbital",
    "C109_orbital_dd",
    "C109_band",
    "C109_band_truncated",
    "C109_band_round_trip"
   ],
   "note": "Proved for files with orbitals counted from one; other files are not rejected (C109_local_refuted). Products of q points and mesh sizes are not rounded to floats."
  },
  {
   "property": "C110",
   "status": "partial",
   "theorems": [
    "C110_read",
    "C110_malformed",
    "C110_round_trip",
    "C110_numbers_refuted",
    "C110_q_read",
    "C110_q_truncated",
    "C110_q_round_trip",
    "C110_q_refuted"
   ],
   "note": "Round trips of quadrupole tensors hold for all symmetric tensors, asymmetric ones are symmetrized (refuted in C110_numbers_refuted, together with numbers that do not count from one). Round trips of q points hold for meshes below 1000 points and second coordinates from -9 to 99, and are refuted beyond (C110_q_refuted)."
  },
  {
   "property": "C111",
   "status": "proved",
   "theorems": [
    "C111_stacked",
    "C111_area",
    "C111_empty"
   ],
   "note": "Real numbers in place of floats."
  },
  {
   "property": "C112",
   "status": "partial",
   "theorems": [
    "C112_arrange",
    "C112_arrange_errors",
    "C112_adjust",
    "C112_adjust_points",
    "C112_adjust_refuted"
   ],
   "note": "Proved for every number of images and all points whose new columns are more than one column apart; the unrestricted claim is false (C112_adjust_refuted): a single row or coinciding columns raise an error."
  },
  {
   "property": "C113",
   "status": "partial",
   "theorems": [
    "C113_total",
    "C113_drawn",
    "C113_maximal",
    "C113_independent",
    "C113_complete_partial",
    "C113_corner_refuted",
    "C113_edge_refuted"
   ],
   "note": "Completeness holds for meshes that are multiples of three and generic energies only (C113_complete_partial); both restrictions are necessary (C113_corner_refuted, C113_edge_refuted). Contract: all processes see the same order of sets; exact arithmetic."
  },
  {
   "property": "C114",
   "status": "partial",
   "theorems": [
    "C114_round_trip",
    "C114_default_refuted",
    "C114_squeezed_refuted"
   ],
   "note": "The round trip is proved for old=True; with the default old=False and for squeezed arrays it is refuted (C114_default_refuted, C114_squeezed_refuted)."
  },
  {
   "property": "C115",
   "status": "partial",
   "theorems": [
    "C115_entries",
    "C115_completed",
    "C115_mesh",
    "C115_offset_refuted"
   ],
   "note": "Proved for files without bands up to the offset; with such bands refuted (C115_offset_refuted)."
  },
  {
   "property": "C116",
   "status": "partial",
   "theorems": [
    "C116_force_constants",
    "C116_undivided",
    "C116_order_refuted",
    "C116_coupling_electron",
    "C116_coupling_phonon",
    "C116_hopping"
   ],
   "note": "Proved for models as created, couplings and Hamiltonians; refuted for models after order_atoms."
  },
  {
   "property": "C117",
   "status": "partial",
   "theorems": [
    "C117_round_trip_refuted",
    "C117_corrected_round_trip",
    "C117_one_character"
   ],
   "note": "Refuted as it stands for every file written (colon after mp_grid); the round trip is proved for the file with this one character changed. The shortest representation of floats (%r) is a contract on the values which occur."
  },
  {
   "property": "C118",
   "status": "partial",
   "theorems": [
    "C118_Fermi_level",
    "C118_energies",
    "C118_insulator_refuted",
    "C118_k_points",
    "C118_agree",
    "C118_many_k_points_refuted",
    "C118_no_smearing_refuted"
   ],
   "note": "Proved for the outputs specified in PwoSpec.v; refuted for insulators (read_pwo, read_Fermi_level), 10000 k points or more, and runs without smearing (read_eps_nk_from_qe_pwo)."
  },
  {
   "property": "C119",
   "status": "partial",
   "theorems": [
    "C119_subset",
    "C119_all",
    "C119_additive",
    "C119_out_of_range",
    "C119_array_refuted",
    "C119_Hellmann_Feynman",
    "C119_negative"
   ],
   "note": "Proved for lists and by default. Refuted for arrays of two or more indices (C119_array_refuted). The file is represented by the data that C118 proves to be read from it."
  },
  {
   "property": "C120",
   "status": "proved",
   "theorems": [
    "C120_last",
    "C120_short",
    "C120_pw"
   ],
   "note": ""
  },
  {
   "property": "C121",
   "status": "partial",
   "theorems": [
    "C121_symmetry_points",
    "C121_eig",
    "C121_eig_refuted",
    "C121_bands_plot",
    "C121_one_point_refuted",
    "C121_wrong_bands",
    "C121_decay"
   ],
   "note": "Proved for fewer than 10000 k points (eig) and at least two lines (bands). Refuted otherwise: C121_eig_refuted, C121_one_point_refuted."
  },
  {
   "property": "C122",
   "status": "partial",
   "theorems": [
    "C122_plot",
    "C122_plot_processes",
    "C122_plot_mesh",
    "C122_plot_periodic",
    "C122_rectify",
    "C122_rectify_crop",
    "C122_colorbar",
    "C122_colorbar_bottom_refuted",
    "C122_color",
    "C122_color_affine",
    "C122_color_again_refuted"
   ],
   "note": "The statement holds except for two refuted details: a colour bar at the very bottom raises an exception, and a colormap with data values as anchor points keeps the anchor points of its first use. Rational numbers; the translations are arbitrary rational vectors."
  },
  {
   "property": "C123",
   "status": "partial",
   "theorems": [
    "C123_cube",
    "C123_header",
    "C123_too_many",
    "C123_too_few_refuted",
    "C123_origin_refuted",
    "C123_grid",
    "C123_grid_single",
    "C123_volume_refuted",
    "C123_cube_grid_refuted"
   ],
   "note": "Everything but the origin is proved for every well-formed file, and the points of grids for all shapes. Refuted: the origin is not returned, too few values are accepted, the volume element is too small, and real_space_grid does not fit the spanning vectors of read_cube."
  },
  {
   "property": "C124",
   "status": "partial",
   "theorems": [
    "C124_selective",
    "C124_distinct",
    "C124_repeated_refuted",
    "C124_scale_refuted",
    "C124_plain_refuted"
   ],
   "note": "Proved for files with selective dynamics and distinct elements, without the scale. Refuted: the scale is ignored, files without selective dynamics cannot be read, and repeated elements are overwritten."
  },
  {
   "property": "C125",
   "status": "proved",
   "theorems": [
    "C125_prtgkk",
    "C125_incomplete_accepted",
    "C125_truncated",
    "C125_excess",
    "C125_no_q",
    "C125_L",
    "C125_no_L",
    "C125_L_only"
   ],
   "note": "Complete output with nk, nbnd > 0; truncation within a table, excess q or k points and k points before the first q point raise. If nk or nbnd is zero, no frequency is read (the arrays are returned uninitialized). Output with too few q or k points is accepted (elements stay uninitialized)."
  },
  {
   "property": "C126",
   "status": "proved",
   "theorems": [
    "C126_couplings",
    "C126_complex",
    "C126_complete",
    "C126_repeated"
   ],
   "note": "Real couplings and complex ones (epf; the factor 1e-3 ** 1.5 is a parameter); defpot and squeeze are not modelled. Decimal numbers are exact, 0 <= eps < 1/2."
  },
  {
   "property": "C127",
   "status": "partial",
   "theorems": [
    "C127_read_xsf",
    "C127_header",
    "C127_no_atoms",
    "C127_too_few",
    "C127_too_many",
    "C127_write_read_partial",
    "C127_lines",
    "C127_round_trip_refuted"
   ],
   "note": "Reading is proved for all files. Files that have been written are read with all numbers correct to the printed digits, but the data come back in a different order (C127_write_read_partial gives the value at each point); the round trip is refuted in general (C127_round_trip_refuted) and proved for data with at most one nontrivial dimension (C127_lines)."
  },
  {
   "property": "C128",
   "status": "proved",
   "theorems": [
    "C128_read_wsvecdat",
    "C128_all",
    "C128_truncated",
    "C128_malformed",
    "C128_missing"
   ],
   "note": ""
  },
  {
   "property": "C129",
   "status": "proved",
   "theorems": [
    "C129_read_patterns",
    "C129_missing",
    "C129_too_few",
    "C129_no_number"
   ],
   "note": ""
  }
 ]
}