{
 "C04": [
  "proved",
  "Sequentially consistent shared memory and MPI's contract for Bcast and Barrier are assumed."
 ],
 "C05": [
  "proved",
  "pickle.load inverts pickle.dump is a hypothesis."
 ],
 "C06": [
  "partial",
  "Refuted: opening the file truncates it, so a kill right afterwards loses both objects and the next get raises EOFError. Proved: other buffers are unaffected."
 ],
 "C08": [
  "partial",
  "Refuted for shared memory on one node with more processes than q points (early return without barrier). Proved: the distribution of q points is complete, and with at most as many processes as q points the shared array is complete for every schedule."
 ],
 "C10": [
  "proved",
  "Exact rational coordinates. The docstring's claim (maximum distance within a group) is refuted by C10_docstring_refuted; the property itself is proved."
 ],
 "C12": [
  "proved",
  "Exact rational arithmetic."
 ],
 "C13": [
  "partial",
  "Refuted: the writer uses C order, the reader Fortran order, so data of a general grid comes back permuted. Proved: all values are read back completely and which permutation results. Number formatting is not modelled."
 ],
 "C14": [
  "proved",
  "For at least one lattice vector and orbital (others cannot be read, C14_empty). Number formatting is not modelled."
 ],
 "C15": [
  "partial",
  "Refuted: a call with six coordinates raises SystemExit unless the interpreter has six command-line arguments, which then override the coordinates. Proved: the value computed from the command line."
 ],
 "C21": [
  "proved",
  "C21_gap_refuted shows that data violating the symmetry can stay incomplete. Exact arithmetic; the integer maps are derived from the Cartesian ones in C21_cartesian."
 ],
 "C22": [
  "proved",
  "Rational arithmetic; numpy.argsort's contract is a hypothesis (ties in any order)."
 ],
 "C23": [
  "proved",
  "Rational numbers instead of floats. numpy.argsort (used by stack for periodic values) enters via its contract. Continuity and translations are proved without the period argument, with which the stacking of values may jump."
 ],
 "C24": [
  "proved",
  "Rational shifts. For shifts of a third of the mesh or more the closest point can be missed (C24_large_shift_refuted)."
 ],
 "C25": [
  "proved",
  "Bond lengths are arbitrary rational-valued functions, so any lattice, positions and rounding are covered; bonds outside of the 2 nsc supercells per dimension are not searched by the code. C25_two_dimensions for zero tolerance."
 ],
 "C26": [
  "proved",
  "Exact arithmetic; C26_mesh_exact over the complex numbers."
 ],
 "C27": [
  "proved",
  "For moveG = 0, three-dimensional points given by coordinates and at least two points (for one, C27_single_refuted: the corner index 0 refers to an empty path). Any rounding function."
 ],
 "C28": [
  "proved",
  "numpy.linalg.inv's contract is a hypothesis."
 ],
 "C29": [
  "partial",
  "Refuted: the squared length uses only two of the three coordinates (C29_out_of_plane_refuted) and every point is on a line of zero length (C29_degenerate_refuted). Proved: positive answers are right for lines of nonzero length; lines within a plane of constant third coordinate are decided correctly."
 ],
 "C31": [
  "partial",
  "Refuted: in angstrom (default), the first element of the caller's celldm is multiplied by the Bohr radius at each call (C31_changed_refuted, C31_twice_refuted). Proved: no change for bohr=True or without celldm."
 ],
 "C32": [
  "partial",
  "Proved: coefficients, H(k), sorting, threshold, symmetrization. Refuted: idempotence (cancelling repetitions leave a zero matrix; C32_idempotent_partial covers the rest), and a model with zero hopping raises an exception afterwards (C32_zero_model_refuted). Exact arithmetic over any commutative ring with conjugation."
 ],
 "C33": [
  "proved",
  "For models without repeated lattice vectors, as stated; C33_repeated_refuted shows that repeated ones are lost."
 ],
 "C34": [
  "partial",
  "Refuted for supercells whose first cell is not the origin: the result is displaced by that cell (C34_displaced, full characterization). Exact if no cell precedes the origin, e.g. for positive multiples."
 ],
 "C36": [
  "proved",
  "Exact arithmetic; e is any multiplicative phase function, C36_phase_factors provides exp(i k.R)."
 ],
 "C39": [
  "partial",
  "Refuted for a model without lattice vectors (IndexError) and, as to the coefficient of exp(i k.R), for repeated lattice vectors; proved otherwise."
 ],
 "C40": [
  "proved",
  "numpy.fft.ifftn's definition is modelled in exact arithmetic. For divide_ndegen=True (default)."
 ],
 "C42": [
  "proved",
  "Real arithmetic, real arguments; erf as the integral of the Gaussian. Fermi functions: exact for |x| < 709, deviation bounded by exp(-709) beyond; two_fermi_dirac and heaviside away from the jump at zero; Methfessel-Paxton up to order 49 (beyond 50, StopIteration)."
 ],
 "C43": [
  "proved",
  "Real arithmetic."
 ],
 "C44": [
  "proved",
  "Real arithmetic; Methfessel-Paxton: first order, other orders raise NotImplementedError. lorentz has no entropy in the code."
 ],
 "C45": [
  "proved",
  "Real arithmetic. Termination for the Fermi function is proved without clipping of arguments at 709, for Gaussian and Lorentzian smearing as is; termination of find_Fermi_level_simple depends on its damping parameter and is not claimed."
 ],
 "C46": [
  "proved",
  "Real arithmetic, real arguments."
 ],
 "C52": [
  "proved",
  "C52_translation: in the model built from corrected force constants."
 ],
 "C54": [
  "proved",
  "Exact arithmetic in any ordered field. Condition: no residual norm of the Gram-Schmidt process lies in the open interval (0, eps); always met for eps = 0 (C54_exact). C54_open_set_refuted: if -R is missing for a lattice vector R, the last constraint is spoilt because the index of the missing vector is taken to be zero."
 ],
 "C55": [
  "proved",
  "Exact arithmetic. Hermiticity of the self term holds up to a q-independent term (C55_hermitian_same)."
 ],
 "C58": [
  "partial",
  "Refuted: for left-handed supercells unit_cell returns lattice vectors of wrong sign (C58_left_handed_refuted), and shifting atoms of a unit cell moves those of the supercell it was taken from (C58_alias_refuted). The round trip is exact for positive multiples of the lattice vectors; in general up to the first cell. Dense branch; long-range terms not modelled."
 ],
 "C75": [
  "proved",
  "The double Fermi-surface average itself is an input of the model."
 ],
 "C78": [
  "proved",
  "Without the corrections of Allen and Dynes; C78_clamped_refuted shows the effect of the lower bound."
 ],
 "C79": [
  "proved",
  "Exact real arithmetic. The docstring (same value at mesh points) holds up to the threshold only: C79_exact_refuted."
 ],
 "C80": [
  "proved",
  "Without asr; exact arithmetic; ifftn as defined by NumPy."
 ],
 "C81": [
  "proved",
  "Exact arithmetic; ifftn as defined by NumPy."
 ],
 "C82": [
  "proved",
  "Real arithmetic; hypotheses exclude square roots of negative numbers (NaN)."
 ],
 "C47": [
  "proved",
  "Real numbers in place of floats; energies as functions on the mesh; allreduce is the sum over processes."
 ],
 "C48": [
  "proved",
  "As C47. Where a triangle is flat at E, the result is infinite irrespective of the coupling."
 ],
 "C49": [
  "proved",
  "Rational numbers in place of floats. Support theorem under the hypothesis that different intersections are at least eps apart. Independence of the origin is refuted: intersections on the boundary of the cell are counted repeatedly (finding)."
 ],
 "C50": [
  "proved",
  "Rational numbers in place of floats. Rows are permutations, greedy choice, recovery of a true band connection, map_dispersions. That by_mean sorts by mean energy is refuted (the sum runs over pairs of points, finding) and proved only for bands that keep their position."
 ],
 "C51": [
  "partial",
  "MPI machine as for C04; each array treated on its own. Energies agree everywhere. That the order agrees everywhere is refuted for shared memory (rank 0 rebinds the name, finding), with an exact statement of which processes are affected, and proved for private memory."
 ],
 "C66": [
  "partial",
  "Exact arithmetic; eigh and the search for the Fermi level are contracts (Gaussian and Fermi-Dirac smearing shown to be admissible); Gamma only. Proved: derivative of free_energy along every direction is jacobian times the direction with centre-of-mass motion removed, hence the components are the partial derivatives if the acoustic sum rule holds; refuted otherwise (finding). hessian is the derivative of jacobian along directions that keep the centre of mass, degenerate energies included; energies closer than eps but not degenerate are excluded. Sparse variants equal dense ones."
 ],
 "C67": [
  "partial",
  "Refuted: the caller's array is centred in place (finding). Proved: unchanged if and only if centred; no other array is touched; the result is that for the given displacements."
 ],
 "C65": [
  "proved",
  "Exact arithmetic."
 ],
 "C70": [
  "proved",
  "Exact arithmetic; contracts for eigh and the search for the Fermi level."
 ],
 "C83": [
  "proved",
  "Exact arithmetic; contract for the search for the Fermi level; Gamma only."
 ],
 "C72": [
  "partial",
  "Proved for polarization and phonon_self_energy (sign, Hermiticity, opposite momenta, compressibility, cRPA, contact term, degenerate limit, any number of processes). Refuted for susceptibility: for q != 0 degenerate terms contribute zero instead of the derivative (C72_susceptibility_refuted)."
 ],
 "C73": [
  "partial",
  "Proved for all energies within 709 kT of the Fermi level, with derivatives (electron number and first-order diagram). Refuted below: because of the clipped exponent, the shortcut saturates (C73_grand_potential_refuted)."
 ],
 "C84": [
  "partial",
  "Proved for density-density interactions. For general interactions renormalize_coupling_orbital never returns because of an operator precedence (C84_general_refuted); C84_general_band shows the intended result."
 ],
 "C85": [
  "proved",
  ""
 ],
 "C86": [
  "proved",
  ""
 ],
 "C87": [
  "proved",
  ""
 ],
 "C88": [
  "proved",
  ""
 ],
 "C68": [
  "proved",
  "Proved at the level of characters for every history of to_xyz calls, structure and process count. Files cut within the last number are silently accepted (C68_interrupted_refuted); foreign content in front of appended frames makes reading fail."
 ],
 "C69": [
  "partial",
  "Save and load proved for drivers with full matrices when storing succeeds. Refuted for failing storage (communicators stay removed, interactive stays False) and for sparse drivers (AttributeError): findings."
 ],
 "C41": [
  "proved",
  "Proved at the level of characters. Numbers that fill their column merge with the previous one: C41_wide_numbers_refuted shows that reading then fails or silently returns another lattice vector."
 ],
 "C57": [
  "partial",
  "Force-constants files round-trip completely (formats %g and %19.11E by contract). Dynamical-matrix files restore structure, q points, matrices and dielectric tensor, but effective charges are lost (headline not recognized), C57_dynamical_charges_refuted. Necessary conditions (symbols of at most two characters, one mass per symbol, both tensor and charges given, columns not merging) shown in C57_conditions_refuted."
 ],
 "C11": [
  "partial",
  "Proved for every expression built from literal text and nested groups (any depth), with the order of elements, and for expressions without brackets. False for literal text like '<0>' (endless recursion), '<7>' (IndexError) and line breaks (text lost): C11_literals_refuted."
 ],
 "C61": [
  "partial",
  "C61_history: for every history of calls of g (any points, any communicators, band or orbital basis) and standardize, and every communicator, the returned coupling is the lattice sum of the present data plus the long-range part in the requested basis. C61_other_point: in any state reachable by changing the data, if one of the calling processes cached another point. The full statement is false: asr, q2r and update_short_range change the data without invalidating the cached Fourier transform, so that g at the point of the last call still returns the old coupling (C61_stale_refuted, C61_asr_refuted)."
 ],
 "C62": [
  "partial",
  "The coupling is unchanged for every model and every pair of points (C62_same_coupling), the lattice vectors are sorted and unique (C62_lattice_vectors), thresholds and symmetrization have the documented effect (C62_threshold, C62_symmetrized). It does not succeed for every model: line 627 compares with the number of the other lattice vectors, C62_fails_refuted characterizes exactly when a ValueError results; C62_succeeds_partial covers models whose second lattice vectors include the origin (and their negatives if symmetrized)."
 ],
 "C63": [
  "partial",
  "C63_sum_rule, C63_gamma, C63_least_change: for every model, the stored elements (after division by the square roots of the masses, if divide_mass) fulfil the sum rule. The physical acoustic sum rule for different masses is not implied and even broken by asr if it held before (C63_masses_refuted)."
 ],
 "C74": [
  "proved",
  "For arbitrary real parameters and wave vectors, including the tight-binding and force-constant matrices generated by rotations and reflections. The Coulomb interaction of graphene is covered as well. create is not modelled."
 ],
 "C71": [
  "partial",
  "W, WR, supercell and standardize proved for all models (supercell for distinct lattice vectors). Refuted: supercell of a model with repeated lattice vectors keeps only the last matrix; a model without interaction cannot be evaluated after standardize. A model read from a file agrees with the file on the mesh if lattice vectors are distinct modulo the mesh (C71_mesh_partial); otherwise later ones replace earlier ones (C71_mesh_refuted). Not proved: agreement off the mesh."
 ],
 "C64": [
  "partial",
  "Round trip proved for all models with and without degeneracies divided out, contents of the files, and rejection of incomplete files if degeneracies have been divided out. Refuted: incomplete degeneracies are accepted otherwise; models cannot be written after standardize unless divide_ndegen; with long-range terms and inconsistent divide_mass the masses are lost; degeneracies that depend on the second orbital are lost. Not modelled: binary Wigner-Seitz files (only read, never written)."
 ],
 "C89": [
  "partial",
  "Proved for models without repeated lattice vectors, which supercell would lose (C89_repeated_refuted). The sparse variant adds the long-range part once per process (C89_sparse_long_range_refuted, C89_sparse_processes); it is right for one process or without long-range part (C89_sparse_partial)."
 ],
 "C90": [
  "proved",
  "Eigensolver abstract: eigenvalues and eigenvectors at mesh points are inputs; rational arithmetic; final broadcast as in C04."
 ],
 "C91": [
  "proved",
  "Eigenvectors enter as unitary matrices (contract of numpy.linalg.eigh). The eigenstates of the folded Hamiltonian being Bloch states is C33_bloch."
 ],
 "C92": [
  "partial",
  "Exact arithmetic; numpy.fft.ifftn by its definition; bond lengths arbitrary rational numbers; divide_ndegen=True. Not true right after q2r if the number of lattice vectors has changed (ValueError) and at the point of the last call (C61)."
 ],
 "C93": [
  "partial",
  "All proved except that transform with squared=True and neither U nor u overwrites the array it is given (C93_unchanged_refuted; C93_unchanged for all other cases)."
 ],
 "C94": [
  "proved",
  "numpy.linalg.inv is a parameter that inverts every invertible matrix of the given size; floats are real numbers."
 ],
 "C95": [
  "proved",
  "Dense branch only; force constants and couplings are arguments; numpy.linalg.eigh is a parameter with its contract; floats are real numbers, the number of states at the Fermi level is assumed not to vanish (otherwise NumPy divides by zero)."
 ],
 "C96": [
  "partial",
  "Proved for meshes of at most 256 x 256 points with nk a multiple of nq. C96_mesh_refuted: if nk is not a multiple of nq, which is not checked, states at wrong momenta are used. C96_large_refuted: indices above 255 do not fit into the array of 8-bit integers (they are wrapped; newer NumPy raises an exception instead)."
 ],
 "C97": [
  "proved",
  "Floats are real numbers; the value of the Bohr radius is a parameter."
 ],
 "C98": [
  "partial",
  "Limit, monotonicity, bounds, symmetry and equivalence of the implementations are proved. Refuted (C98_real_refuted): the susceptibility of real energies is complex, with an imaginary part that does not vanish with more frequencies."
 ],
 "C99": [
  "partial",
  "Proved for images at 60, 90 and 120 degrees in any orientation, with tightness of the box for 60 and 120 degrees and for 90 degrees without rotation, and for outlines at 60 and 120 degrees. Refuted: the box of a rotated square lattice cuts off corners of the zone (C99_box_refuted), and the outline of the square zone is twice too large (C99_outline_refuted)."
 ],
 "C100": [
  "partial",
  "Corners for at least two points per reciprocal length (fewer: refuted, M is not on the path). Distances, straightness and mesh points without the degeneracy-lifting shift; with it, points differ by at most 4 pi 1e-10, so that the default path is not on the mesh (C100_mesh_refuted). Without straight, K is shifted twice since two names refer to one array; the bound covers this."
 ],
 "C101": [
  "partial",
  "C101_preserved_partial gives the exact deviation on the mesh, C101_preserved_refuted shows that it need not vanish (truncated sum over reciprocal lattice vectors is not periodic); it vanishes at q = 0 and for periodic long-range terms."
 ],
 "C102": [
  "partial",
  "Proved for strings without quotes, backslashes, exclamation marks, newlines and placeholders, integers, truth values, floats whose repr the parser recognizes (contract float_ok, met by decimal notation), and lists of these where the format has indexed lists. Refuted for other strings, None, lists written as one value and, in matdyn.x inputs, strings with a slash. Indexed lists lose entries that count as false (kept). Masses are written with %.12g, of which only the result g12 is assumed to be read back. Hashes of names and the order of dictionary entries are not modelled."
 ],
 "C103": [
  "partial",
  "Proved for all layouts with distinct names, strings without quotation marks, and words that do not begin with a parenthesis. Refuted for repetitions (3*0.5), doubled quotation marks, empty namelists in one line, and strings with the other kind of quotation mark."
 ],
 "C104": [
  "partial",
  "Proved for hexagonal lattices. Refuted for the square lattice (documented in the docstring): the irreducible points found by bravais.irreducibles do not suffice since the fourfold rotation is not used, so that part of the array stays uninitialized. Refuted for other choices of irreducible points at 60 degrees, which raise IndexError."
 ],
 "C105": [
  "proved",
  "for names of the documented form; a name that is not of this form is understood up to the first character that does not fit (C105_misspelled)"
 ],
 "C106": [
  "partial",
  "proved for species named after elements; C106_digits_refuted: with digits in the names of species (Ta, Ta1) names collide or are numbered twice, depending on the order of iteration over a set"
 ],
 "C107": [
  "partial",
  "Proved for steps that divide the mesh and for models without long-range terms (with them: exactly the surplus is stated); refuted otherwise. Writing the hr.dat file is C41."
 ],
 "C108": [
  "partial",
  "All files with at least one k point are covered; files without k points can be written but not read (C108_empty_refuted). Formats are '%w.df' with positive d."
 ],
 "C109": [
  "partial",
  "Proved for files with orbitals counted from one; other files are not rejected (C109_local_refuted). Products of q points and mesh sizes are not rounded to floats."
 ],
 "C110": [
  "partial",
  "Round trips of quadrupole tensors hold for all symmetric tensors, asymmetric ones are symmetrized (refuted in C110_numbers_refuted, together with numbers that do not count from one). Round trips of q points hold for meshes below 1000 points and second coordinates from -9 to 99, and are refuted beyond (C110_q_refuted)."
 ],
 "C111": [
  "proved",
  "Real numbers in place of floats."
 ],
 "C112": [
  "partial",
  "Proved for every number of images and all points whose new columns are more than one column apart; the unrestricted claim is false (C112_adjust_refuted): a single row or coinciding columns raise an error."
 ],
 "C113": [
  "partial",
  "Completeness holds for meshes that are multiples of three and generic energies only (C113_complete_partial); both restrictions are necessary (C113_corner_refuted, C113_edge_refuted). Contract: all processes see the same order of sets; exact arithmetic."
 ],
 "C114": [
  "partial",
  "The round trip is proved for old=True; with the default old=False and for squeezed arrays it is refuted (C114_default_refuted, C114_squeezed_refuted)."
 ],
 "C115": [
  "partial",
  "Proved for files without bands up to the offset; with such bands refuted (C115_offset_refuted)."
 ],
 "C116": [
  "partial",
  "Proved for models as created, couplings and Hamiltonians; refuted for models after order_atoms."
 ],
 "C117": [
  "partial",
  "Refuted as it stands for every file written (colon after mp_grid); the round trip is proved for the file with this one character changed. The shortest representation of floats (%r) is a contract on the values which occur."
 ],
 "C118": [
  "partial",
  "Proved for the outputs specified in PwoSpec.v; refuted for insulators (read_pwo, read_Fermi_level), 10000 k points or more, and runs without smearing (read_eps_nk_from_qe_pwo)."
 ],
 "C119": [
  "partial",
  "Proved for lists and by default. Refuted for arrays of two or more indices (C119_array_refuted). The file is represented by the data that C118 proves to be read from it."
 ],
 "C121": [
  "partial",
  "Proved for fewer than 10000 k points (eig) and at least two lines (bands). Refuted otherwise: C121_eig_refuted, C121_one_point_refuted."
 ],
 "C122": [
  "partial",
  "The statement holds except for two refuted details: a colour bar at the very bottom raises an exception, and a colormap with data values as anchor points keeps the anchor points of its first use. Rational numbers; the translations are arbitrary rational vectors."
 ],
 "C123": [
  "partial",
  "Everything but the origin is proved for every well-formed file, and the points of grids for all shapes. Refuted: the origin is not returned, too few values are accepted, the volume element is too small, and real_space_grid does not fit the spanning vectors of read_cube."
 ],
 "C124": [
  "partial",
  "Proved for files with selective dynamics and distinct elements, without the scale. Refuted: the scale is ignored, files without selective dynamics cannot be read, and repeated elements are overwritten."
 ],
 "C125": [
  "proved",
  "Complete output with nk, nbnd > 0; truncation within a table, excess q or k points and k points before the first q point raise. If nk or nbnd is zero, no frequency is read (the arrays are returned uninitialized). Output with too few q or k points is accepted (elements stay uninitialized)."
 ],
 "C126": [
  "proved",
  "Real couplings and complex ones (epf; the factor 1e-3 ** 1.5 is a parameter); defpot and squeeze are not modelled. Decimal numbers are exact, 0 <= eps < 1/2."
 ],
 "C127": [
  "partial",
  "Reading is proved for all files. Files that have been written are read with all numbers correct to the printed digits, but the data come back in a different order (C127_write_read_partial gives the value at each point); the round trip is refuted in general (C127_round_trip_refuted) and proved for data with at most one nontrivial dimension (C127_lines)."
 ]
}
