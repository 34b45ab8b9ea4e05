{"id": "C01", "title": "Work distribution is a balanced partition", "statement": "MPI.distribute(size, bounds=True, comm, chunks) returns chunk sizes and bounds such that there is one chunk per process, the chunk sizes add up to size, any two sizes differ by at most one with the larger ones first, and the bounds start at 0, end at size and differ by exactly the chunk sizes, so that the slices bounds[r]:bounds[r+1] tile range(size) without gap or overlap.", "quantifier": "every size >= 0 and every number of chunks >= 1 (chunks = 0 raises ZeroDivisionError)", "why_tests_cant": "A test fixes a few (size, chunks) pairs; a boundary error typically shows only for one residue of size modulo the number of processes, and the process count is chosen by whoever launches the job.", "anchors": ["elphmod/MPI.py: distribute"]}
{"id": "C02", "title": "Scatter - compute - gather does not depend on the number of processes", "statement": "Distributing an array with MPI.distribute, scattering it with Scatterv, applying the same function to every local item and collecting the pieces with Gatherv yields the result of applying the function serially to the whole array, whatever the number of processes.", "quantifier": "every array, every per-item function and every number of processes >= 1 (including more processes than items)", "why_tests_cant": "Tests run on one or two process counts; the claim is about all of them.", "anchors": ["elphmod/MPI.py: distribute", "elphmod/dispersion.py: dispersion, dispersion_full, sample"]}
{"id": "C03", "title": "matrix() arranges processes in a grid", "statement": "MPI.matrix(size) splits the processes into column and row communicators such that two processes share the column communicator iff their ranks agree modulo size, share the row communicator iff their ranks agree after integer division by size, any process is determined by its column and row, and the rank within the column (row) is the row (column) index.", "quantifier": "every number of processes and every size >= 1", "why_tests_cant": "Depends on launch-time process count.", "anchors": ["elphmod/MPI.py: matrix"]}
{"id": "C04", "title": "Broadcast of a shared-memory array reaches every process before anybody reads it", "statement": "After SharedArray.Bcast() every process that passed the call reads, from the memory it shares with its node, the data of the root process, for every assignment of processes to nodes and every interleaving of the processes; no process can pass the call before the root has entered it.", "quantifier": "every number of processes, every assignment to nodes and every schedule", "why_tests_cant": "Races depend on the interleaving and the node layout; neither is controlled by a test.", "anchors": ["elphmod/MPI.py: shm_split, shared_array, SharedArray.Bcast"]}
{"id": "C05", "title": "Buffer remembers the last value stored under a name", "statement": "MPI.Buffer: for every history of set and get calls, get(name) returns the object most recently passed to set(name) through a buffer of the same file prefix, None if there is none, every process gets the same answer, and a Buffer created without file name never stores or returns anything.", "quantifier": "every finite history of set/get calls on any number of buffers", "why_tests_cant": "Property of histories.", "anchors": ["elphmod/MPI.py: Buffer.get, Buffer.set"]}
{"id": "C06", "title": "A crash while storing a Buffer loses neither old nor new value", "statement": "If the process is killed at any point during Buffer.set, a later Buffer.get returns either the previously stored or the new object.", "quantifier": "every crash point during set", "why_tests_cant": "Crash points cannot be enumerated by unit tests.", "anchors": ["elphmod/MPI.py: Buffer.set"]}
{"id": "C07", "title": "Round-robin distribution loses and repeats nothing", "statement": "The pattern \"for each task number i: work on it if i % comm.size == comm.rank; then add up the results of all processes\" (used for Wigner-Seitz shells and supercell couplings) handles each task on exactly one process, so the total equals the serial one for every number of processes.", "quantifier": "every number of tasks and processes", "why_tests_cant": "Depends on launch-time process count.", "anchors": ["elphmod/bravais.py: wigner", "elphmod/elph.py: Model.supercell", "elphmod/MPI.py: comm"]}
{"id": "C08", "title": "Sampled couplings are complete when sample() returns", "statement": "When elph.Model.sample(..., shared_memory=True) returns on any process, the returned shared array holds the couplings of all requested q points.", "quantifier": "every number of processes and every schedule", "why_tests_cant": "Race condition: visible only under particular interleavings.", "anchors": ["elphmod/elph.py: Model.sample"]}
{"id": "C09", "title": "vector_index finds the first match", "statement": "misc.vector_index(vectors, vector) returns the smallest index i with vectors[i] == vector, and None iff there is none; in particular index 0 is distinguishable from \"not found\" by the \"is None\" test.", "quantifier": "every list of vectors and every vector", "why_tests_cant": "Universally quantified over inputs.", "anchors": ["elphmod/misc.py: vector_index"]}
{"id": "C10", "title": "group() returns the connected components", "statement": "misc.group(points, eps) returns lists of indices which partition range(len(points)); two indices are in one list iff they are connected by a chain of points in which no coordinate changes by eps or more per step. (The docstring claim that distances within a group do not exceed eps does not follow.)", "quantifier": "every list of points and every eps", "why_tests_cant": "Transitive closure through relabelling passes in one sweep: an order-dependent bug needs particular point orders.", "anchors": ["elphmod/misc.py: group"]}
{"id": "C11", "title": "split() expands nested curly braces like a product of alternatives", "statement": "misc.split(expression) returns the comma-separated alternatives of the expression where brace groups are multiplied out; on expressions without braces it is the plain split at commas; it always terminates.", "quantifier": "every string", "why_tests_cant": "Recursion over string structure; termination for all inputs.", "anchors": ["elphmod/misc.py: split"]}
{"id": "C12", "title": "differential() integrates to the spanned interval", "statement": "misc.differential(x) yields weights which add up to max(x) - min(x) = (last minus first element for sorted x) and integrate every affine function exactly by the trapezoidal rule; fewer than two points raise IndexError.", "quantifier": "every sorted list of sample points", "why_tests_cant": "Universally quantified over inputs.", "anchors": ["elphmod/misc.py: differential"]}
{"id": "C13", "title": "xsf files round-trip", "statement": "misc.read_xsf(misc.write_xsf(...)) returns the data that was written.", "quantifier": "every data grid shape", "why_tests_cant": "Quantifies over grid shapes; an index-order bug is invisible for symmetric data.", "anchors": ["elphmod/misc.py: read_xsf, write_xsf"]}
{"id": "C14", "title": "Wmat files round-trip", "statement": "Writing an interaction tensor with elel.Model.to_Wmat and reading it with misc.read_dat_mat returns the same tensor at the same q points.", "quantifier": "every number of q points and orbitals and every tensor", "why_tests_cant": "Quantifies over sizes.", "anchors": ["elphmod/misc.py: read_dat_mat", "elphmod/elel.py: Model.to_Wmat"]}
{"id": "C15", "title": "minimum() can be called from Python", "statement": "misc.minimum called with six coordinates returns the abscissa of the minimum of the parabola through the three points.", "quantifier": "every triple of distinct points", "why_tests_cant": "The parabola claim is algebraic; the entry guard depends on interpreter state (sys.argv).", "anchors": ["elphmod/misc.py: minimum"]}
{"id": "C16", "title": "Status bars print each column once and never block others after completion", "statement": "misc.StatusBar: over any sequence of update() calls the number of printed column characters never exceeds and finally equals the width; after exactly count updates the line is finished and a new bar may start; a bar created while another is active stays silent.", "quantifier": "every count >= 0, width and history of bars", "why_tests_cant": "Histories of nested bars.", "anchors": ["elphmod/misc.py: StatusBar"]}
{"id": "C17", "title": "A supercell contains each class of lattice vectors exactly once", "statement": "bravais.supercell(N1, N2, N3) with integer, linearly independent N returns exactly |det N| cells; every integer lattice vector differs from exactly one of the returned cells by an integer combination of N1, N2, N3, the cell (0, 0, 0) comes first or is contained.", "quantifier": "every integer 3x3 matrix of nonzero determinant (both signs)", "why_tests_cant": "Infinite family of matrices; sign of determinant and bounding-box corners are the classical pitfalls.", "anchors": ["elphmod/bravais.py: supercell"]}
{"id": "C18", "title": "to_supercell is the unique decomposition into supercell and unit cell", "statement": "bravais.to_supercell(R, supercell(N)) returns (R', n) with R = R'_1 N1 + R'_2 N2 + R'_3 N3 + cells[n], for every lattice vector R, never fails, and is a bijection.", "quantifier": "every integer matrix of nonzero determinant and every integer R", "why_tests_cant": "Infinite domain.", "anchors": ["elphmod/bravais.py: supercell, to_supercell"]}
{"id": "C19", "title": "images() is the orbit of a q point", "statement": "bravais.images(k1, k2, nk, angle) returns the set of all symmetry images of a mesh point under the sixfold (or fourfold) rotations and reflections modulo nk: the result contains the point, is closed under the group, and every element can be reached.", "quantifier": "every mesh size and every mesh point", "why_tests_cant": "Infinite family of meshes.", "anchors": ["elphmod/bravais.py: images"]}
{"id": "C20", "title": "irreducibles() picks exactly one representative per orbit", "statement": "bravais.irreducibles(nk, angle) returns mesh points such that each point of the mesh is a symmetry image of exactly one of them.", "quantifier": "every mesh size", "why_tests_cant": "Infinite family of meshes.", "anchors": ["elphmod/bravais.py: irreducibles"]}
{"id": "C21", "title": "complete() fills the mesh consistently with the symmetry", "statement": "bravais.complete(data, angle) only replaces NaN entries, sets the value at every mesh point to the value given at one of its symmetry images, and, if the given data are values of a function with the symmetry of the lattice, leaves NaN only where the whole orbit is NaN and otherwise recovers the function; values at the irreducible points are enough. (For data that violate the symmetry, gaps may remain.)", "quantifier": "every mesh size and every data", "why_tests_cant": "Infinite family.", "anchors": ["elphmod/bravais.py: complete"]}
{"id": "C22", "title": "stack() finds the most compact arrangement of periodic points", "statement": "bravais.stack(*points, period=) shifts each point by a multiple of the period only, and no other choice of multiples gives a smaller standard deviation of the points.", "quantifier": "every nonempty list of points, every positive period, every valid sorting order", "why_tests_cant": "Infinitely many shifts compete with the returned one.", "anchors": ["elphmod/bravais.py: stack"]}
{"id": "C23", "title": "Linear interpolation reproduces the data and stays within its range", "statement": "bravais.linear_interpolation(data, angle, period) on a square or triangular mesh reproduces data at the original points, yields convex combinations of the mesh values (no overshoot), exactly reproduces locally affine functions, is continuous across triangle borders and commutes with lattice translations.", "quantifier": "every mesh size, data and interpolation point", "why_tests_cant": "Infinite domain; borders of triangles are measure-zero.", "anchors": ["elphmod/bravais.py: linear_interpolation"]}
{"id": "C24", "title": "to_Voronoi returns exactly the nearest images", "statement": "bravais.to_Voronoi(k1, k2, nk, angle, dk1, dk2) returns, without tolerance and for shifts below a third (square: half) of nk, exactly those points equivalent to (k1, k2) modulo nk to which no equivalent point anywhere in the lattice is closer, all of them and only them; with a tolerance, exactly the candidates within that tolerance of the best one. For larger shifts the closest point can be missed.", "quantifier": "every mesh point, mesh size, angle of 60, 90 or 120 degrees and rational shift", "why_tests_cant": "Ties are measure-zero events for random tests.", "anchors": ["elphmod/bravais.py: to_Voronoi, squared_distance"]}
{"id": "C25", "title": "Wigner-Seitz weights form a partition of unity", "statement": "bravais.wigner and wigner_2d return, without repetition, the lattice vectors of the shortest of all equivalent bonds (among the supercells searched) with their number and length, independently of the number of processes; for each mesh vector and pair of sites the weights 1/ndegen of the equivalent lattice vectors add up to one.", "quantifier": "every mesh, every bond-length function (thus every lattice and set of site positions), every number of processes", "why_tests_cant": "Infinite families; ties.", "anchors": ["elphmod/bravais.py: wigner, wigner_2d"]}
{"id": "C26", "title": "short_range_model and Wigner-Seitz mapping are exact on the mesh", "statement": "Mapping force constants or hopping on a mesh to Wigner-Seitz vectors does not change the Fourier transform at the q points of the mesh.", "quantifier": "every mesh size, data and mesh point", "why_tests_cant": "Infinite family.", "anchors": ["elphmod/bravais.py: short_range_model, wigner", "elphmod/el.py: Model.__init__ (wsvec)", "elphmod/el.py: k2r"]}
{"id": "C27", "title": "path() visits its corners and is monotone", "statement": "bravais.path(points, N) yields a list of k points which contains every corner at the recorded corner index, has nondecreasing abscissa starting at zero and interpolates linearly in between.", "quantifier": "every sequence of corner points", "why_tests_cant": "Infinite inputs incl. repeated corners.", "anchors": ["elphmod/bravais.py: path"]}
{"id": "C28", "title": "Reciprocal vectors and coordinate conversions are inverse to each other", "statement": "bravais.reciprocals(a1, a2, a3) returns the dual basis, and crystal_to_cartesian and cartesian_to_crystal are mutually inverse for linearly independent vectors.", "quantifier": "every basis and every list of points", "why_tests_cant": "Algebraic identity over reals.", "anchors": ["elphmod/bravais.py: reciprocals, crystal_to_cartesian, cartesian_to_crystal, volume"]}
{"id": "C29", "title": "point_on_path decides whether a point lies on a segment", "statement": "bravais.point_on_path(test, A, B) is true iff the point lies on the line from A to B.", "quantifier": "every triple of 3D points", "why_tests_cant": "Off-plane points.", "anchors": ["elphmod/bravais.py: point_on_path"]}
{"id": "C30", "title": "mesh and kpoints enumerate the uniform grid", "statement": "bravais.mesh(n1, ..., nd) and kpoints list every grid point exactly once in row-major order.", "quantifier": "every grid shape", "why_tests_cant": "Infinite family.", "anchors": ["elphmod/bravais.py: mesh, kpoints"]}
{"id": "C31", "title": "primitives leaves its arguments unchanged", "statement": "bravais.primitives(ibrav, celldm=...) does not modify the lists passed by the caller, so calling it twice gives the same lattice.", "quantifier": "every ibrav and parameter list", "why_tests_cant": "Effect on caller state over repeated calls.", "anchors": ["elphmod/bravais.py: primitives"]}
{"id": "C32", "title": "standardize() does not change the Hamiltonian", "statement": "el.Model.standardize() turns repeated lattice vectors into one by adding up their matrices, drops only matrices below the threshold, returns lattice vectors sorted and without repetition, is idempotent and leaves H(k) unchanged at every k; with symmetrize=True the result satisfies t(-R) = t(R)^dagger.", "quantifier": "every finite model and every k", "why_tests_cant": "Infinite family of models.", "anchors": ["elphmod/el.py: Model.standardize, Model.H"]}
{"id": "C33", "title": "Supercell Hamiltonian has the hopping of the original crystal", "statement": "el.Model.supercell(N1, N2, N3): the hopping between orbital a in cell cells[i] of supercell 0 and orbital b in cell cells[j] of supercell R equals the original t(R.N + cells[j] - cells[i])[a, b], for all R, i, j, a, b.", "quantifier": "every model without repeated lattice vectors, every supercell matrix", "why_tests_cant": "Infinite families of models and matrices.", "anchors": ["elphmod/el.py: Model.supercell, Model.t", "elphmod/bravais.py: supercell, to_supercell"]}
{"id": "C34", "title": "unit_cell undoes supercell", "statement": "el.Model.unit_cell() applied to a supercell built from a model returns the original hopping matrices.", "quantifier": "every model and every supercell matrix", "why_tests_cant": "Infinite families.", "anchors": ["elphmod/el.py: Model.supercell, Model.unit_cell"]}
{"id": "C35", "title": "order_orbitals only relabels orbitals", "statement": "el.Model.order_orbitals(*order) yields H'(k) = P^T H(k) P for the given order; ordering back restores the model.", "quantifier": "every model and permutation", "why_tests_cant": "Infinite family.", "anchors": ["elphmod/el.py: Model.order_orbitals"]}
{"id": "C36", "title": "shift_orbitals is a gauge transformation", "statement": "el.Model.shift_orbitals(s, S) multiplies H_ab(k) with exp(+-i S.k) iff exactly one of a and b is in s; shifting back by -S restores the model; H stays Hermitian.", "quantifier": "every model, selection s and shift S", "why_tests_cant": "Infinite family.", "anchors": ["elphmod/el.py: Model.shift_orbitals"]}
{"id": "C37", "title": "H(k) is periodic and Hermitian", "statement": "el.Model.H(k) is 2 pi periodic in each component of k, and Hermitian whenever t(-R) = t(R)^dagger.", "quantifier": "every model, every real k", "why_tests_cant": "Infinite domain.", "anchors": ["elphmod/el.py: Model.H"]}
{"id": "C38", "title": "v(k) is the k derivative of H(k)", "statement": "el.Model.v(k) returns the gradient of H at every k.", "quantifier": "every model and real k", "why_tests_cant": "Derivative at all points.", "anchors": ["elphmod/el.py: Model.v, Model.H"]}
{"id": "C39", "title": "t(R) is the coefficient of exp(i k R)", "statement": "el.Model.t(R) returns the stored matrix of lattice vector R and the zero matrix for vectors not stored, never an error.", "quantifier": "every model and R", "why_tests_cant": "Infinite domain.", "anchors": ["elphmod/el.py: Model.t", "elphmod/ph.py: Model.C", "elphmod/elph.py: Model.gR"]}
{"id": "C40", "title": "k2r reproduces the Hamiltonian on its mesh", "statement": "el.k2r(el, H, a, r): the resulting model reproduces the given matrices at each point of the k mesh.", "quantifier": "every mesh and matrices", "why_tests_cant": "Infinite family.", "anchors": ["elphmod/el.py: k2r"]}
{"id": "C41", "title": "hrdat files round-trip", "statement": "el.read_hrdat(el.write_hrdat(...)) returns the same lattice vectors in lexicographic order and the same matrices to the printed precision, divided by the degeneracies if requested, independently of the number of lattice vectors modulo 15, as long as all numbers leave a blank in their column. Files with other number formats and line lengths, and *_tb.dat files with the same content, are read to the same result.", "quantifier": "every number of lattice vectors and orbitals, all values that fit", "why_tests_cant": "Line-wrapping boundaries and real-valued data.", "anchors": ["elphmod/el.py: read_hrdat, write_hrdat"]}
{"id": "C42", "title": "Smearing functions are consistent with their derivatives", "statement": "For every smearing f in elphmod.occupations, f.delta is minus the derivative of f and f.delta_prime the derivative of f.delta at every x inside the clipping range.", "quantifier": "every real x", "why_tests_cant": "Holds at all reals.", "anchors": ["elphmod/occupations.py: fermi_dirac, gauss, marzari_vanderbilt, methfessel_paxton, lorentz, double_fermi_dirac, two_fermi_dirac"]}
{"id": "C43", "title": "Occupations go from one to zero and obey particle-hole symmetry", "statement": "f(-x) + f(x) = 1, f(x) in [0, 1], nonincreasing, one far below and zero far above the Fermi level for Fermi-Dirac (within the clipping range), Gaussian, Lorentzian and Heaviside functions; Methfessel-Paxton functions keep the symmetry, Marzari-Vanderbilt occupations are positive.", "quantifier": "every real x", "why_tests_cant": "Holds at all reals.", "anchors": ["elphmod/occupations.py"]}
{"id": "C44", "title": "Entropies are consistent with the occupations", "statement": "The entropy function of each smearing has derivative x f'(x), so that the free energy is variational in the occupations.", "quantifier": "every real x", "why_tests_cant": "Holds at all reals.", "anchors": ["elphmod/occupations.py"]}
{"id": "C45", "title": "A returned Fermi level yields the requested number of electrons", "statement": "If occupations.find_Fermi_level returns normally, the number of electrons at the returned level agrees with the requested one within the stated tolerance. The default guess lies between the extremal energies. For smooth steps that flatten out on both sides (Fermi-Dirac, Gaussian, Lorentzian) and any number of electrons strictly between empty and full bands, the iteration ends from every guess.", "quantifier": "every energy list and occupation function", "why_tests_cant": "Partial correctness of an iteration for all inputs.", "anchors": ["elphmod/occupations.py: find_Fermi_level, find_Fermi_level_simple"]}
{"id": "C46", "title": "Sums over Matsubara frequencies converge to the Fermi function", "statement": "occupations.fermi_dirac_matsubara sums over the poles (2n+1) pi i of the Fermi function. For any number of frequencies, its derivatives are consistent and it is particle-hole symmetric; it converges to the Fermi function with an error inversely proportional to the number of frequencies.", "quantifier": "every number of frequencies, every real x", "why_tests_cant": "A limit over all numbers of frequencies.", "anchors": ["elphmod/occupations.py: fermi_dirac_matsubara, fermi_dirac_matsubara_delta, fermi_dirac_matsubara_delta_prime"]}
{"id": "C47", "title": "Triangle density of states is nonnegative and normalised", "statement": "dos.hexDOS(energies): the returned function is nonnegative, zero outside of the band, positive inside, infinite exactly at the energies of flat triangles, and integrates to one if there are none. It is the derivative of the fraction of the Brillouin zone below a given energy in linear interpolation on the triangles. It depends neither on the number of processes nor on the energy window if the latter contains the argument.", "quantifier": "every mesh of energies, every number of processes, all real energies", "why_tests_cant": "Degenerate triangles; all real energies.", "anchors": ["elphmod/dos.py: hexDOS"]}
{"id": "C48", "title": "hexa2F weights average the coupling", "statement": "dos.hexa2F(energies, couplings) with constant coupling c is c times hexDOS; it is linear in the couplings, stays between minimal and maximal coupling times the density of states, and integrates to the arithmetic mean of the couplings.", "quantifier": "every mesh, every number of processes, all real energies", "why_tests_cant": "Degenerate triangles; all real energies.", "anchors": ["elphmod/dos.py: hexa2F, hexDOS"]}
{"id": "C49", "title": "double_delta weights are nonnegative and supported on intersections", "statement": "dos.double_delta(x, y, f)(z) finds exactly the points at which the linear interpolations of x and y on a triangle both take the value z, weighted with f over the Jacobian determinant; entries of the result are averages over groups of such points, weights are nonnegative for nonnegative f, and the points collected do not depend on the number of processes. The sum should not depend on the origin of the periodic mesh (refuted).", "quantifier": "every pair of meshes, every z, every number of processes", "why_tests_cant": "Degenerate intersections; all values of z.", "anchors": ["elphmod/dos.py: double_delta"]}
{"id": "C50", "title": "band_order returns a permutation for each k", "statement": "dispersion.band_order(v, V): each row is a permutation of the band indices, the first is the identity, and each step connects a band with a state of maximal overlap among those left.", "quantifier": "every list of eigenvectors", "why_tests_cant": "Infinite domain.", "anchors": ["elphmod/dispersion.py: band_order"]}
{"id": "C51", "title": "dispersion orders bands on all processes alike", "statement": "dispersion.dispersion(..., order=True, shared_memory=True) returns the same band order on all processes.", "quantifier": "every number of processes", "why_tests_cant": "Depends on process count.", "anchors": ["elphmod/dispersion.py: dispersion"]}
{"id": "C52", "title": "The acoustic sum rule correction makes rigid translations free", "statement": "ph.asr(phid) changes only the self terms and afterwards the force constants sum up to zero over all second atoms and cells, for each first atom and pair of directions; applying it twice equals applying it once.", "quantifier": "every force-constant array of every size", "why_tests_cant": "Infinite family.", "anchors": ["elphmod/ph.py: asr"]}
{"id": "C53", "title": "zasr makes the effective charges neutral", "statement": "ph.zasr(Z) subtracts the mean so that the charges add up to zero and shifts all atoms alike; idempotent.", "quantifier": "every number of atoms", "why_tests_cant": "Infinite family.", "anchors": ["elphmod/ph.py: zasr"]}
{"id": "C54", "title": "Sum-rule correction satisfies all sum rules it is asked for", "statement": "ph.Model.sum_rule_correction yields, for a symmetric model, the closest force constants (Euclidean distance, masses multiplied) that satisfy the requested acoustic and rotational sum rules simultaneously; they are still symmetric, and data that satisfied the rules is unchanged.", "quantifier": "every model with lattice vectors closed under negation and every combination of sum rules, atoms and positions", "why_tests_cant": "Linear dependence among constraints.", "anchors": ["elphmod/ph.py: Model.sum_rule_correction"]}
{"id": "C55", "title": "Long-range terms respect the acoustic sum rule", "statement": "The long-range part subtracted and added for polar materials gives no force under rigid translations at q -> 0.", "quantifier": "every number of atoms, charges and masses", "why_tests_cant": "Infinite family.", "anchors": ["elphmod/ph.py: Model.prepare_long_range, Model.D_lr"]}
{"id": "C56", "title": "Polarization weights add up to the norm", "statement": "ph.polarization(e, path): longitudinal, transverse and out-of-plane weights add up to the squared norm of the displacement and are nonnegative.", "quantifier": "every displacement and path", "why_tests_cant": "Infinite domain.", "anchors": ["elphmod/ph.py: polarization"]}
{"id": "C57", "title": "flfrc files round-trip", "statement": "ph.read_flfrc(ph.write_flfrc(...)) restores the force constants, atoms, masses, cell, dielectric tensor and Born charges; the same holds for dynamical-matrix files.", "quantifier": "every number of atoms and types and mesh", "why_tests_cant": "Infinite family.", "anchors": ["elphmod/ph.py: read_flfrc, write_flfrc"]}
{"id": "C58", "title": "Phonon supercell, unit cell, order and shift preserve the force constants", "statement": "ph.Model.supercell / unit_cell / order_atoms / shift_atoms / standardize obey the analogues of C32-C36, and do not modify the model they were called on (supercell, unit_cell).", "quantifier": "every model and supercell matrix", "why_tests_cant": "Infinite family; aliasing.", "anchors": ["elphmod/ph.py: Model.supercell, Model.unit_cell, Model.order_atoms, Model.shift_atoms, Model.standardize"]}
{"id": "C59", "title": "Mass scaling is a similarity transformation that can be undone", "statement": "ph.divide_by_mass and its inverse in to_flfrc / update_short_range restore the force constants; symmetric matrices stay symmetric; sgnsqrt is the odd inverse of the signed square.", "quantifier": "every positive masses and matrix", "why_tests_cant": "Infinite domain.", "anchors": ["elphmod/ph.py: divide_by_mass, sgnsqrt, Model.to_flfrc"]}
{"id": "C60", "title": "Interatomic force constants to file mesh and back", "statement": "ph.Model.to_flfrc folds lattice vectors to the mesh so that the dynamical matrix at the q points of the mesh is preserved.", "quantifier": "every model and mesh", "why_tests_cant": "Infinite family.", "anchors": ["elphmod/ph.py: Model.to_flfrc", "elphmod/ph.py: q2r"]}
{"id": "C61", "title": "The q cache never shows: g depends on its arguments only", "statement": "elph.Model.g(q, k) returns the same value for the same arguments and couplings, whatever was called before.", "quantifier": "every history of g, asr, q2r, standardize, ... calls", "why_tests_cant": "Property of histories.", "anchors": ["elphmod/elph.py: Model.g, Model.asr, Model.standardize, Model.q2r"]}
{"id": "C62", "title": "elph.standardize keeps the couplings", "statement": "elph.Model.standardize() leaves g(q, k) unchanged and succeeds for every model.", "quantifier": "every model", "why_tests_cant": "Infinite family of index sets.", "anchors": ["elphmod/elph.py: Model.standardize"]}
{"id": "C63", "title": "elph.asr removes coupling to rigid translations", "statement": "After elph.Model.asr() the sum over atoms of the coupling summed over all lattice vectors vanishes for each direction.", "quantifier": "every model", "why_tests_cant": "Infinite family.", "anchors": ["elphmod/elph.py: Model.asr"]}
{"id": "C64", "title": "epmatwp files round-trip", "statement": "elph.Model.to_epmatwp writes data which the constructor, with the same flags, reads back to the same couplings on the same lattice vectors, with the same degeneracies unless they have been divided out; incomplete files are rejected.", "quantifier": "every model, every point at which writing may be interrupted", "why_tests_cant": "Infinite family.", "anchors": ["elphmod/elph.py: Model.to_epmatwp, Model.__init__, Model.divide_degeneracy; elphmod/bravais.py: read_wigner_file"]}
{"id": "C65", "title": "Centring the mass leaves relative displacements alone", "statement": "md.Driver.center_mass(u): afterwards the sum of displacements vanishes in each direction, relative displacements are unchanged, idempotent.", "quantifier": "every number of atoms and displacement", "why_tests_cant": "Infinite domain.", "anchors": ["elphmod/md.py: Driver.center_mass"]}
{"id": "C66", "title": "Forces are the gradient of the energy", "statement": "md.Driver: jacobian is the derivative of free_energy with respect to the displacements, hessian the derivative of jacobian.", "quantifier": "every displacement", "why_tests_cant": "Derivative at all points.", "anchors": ["elphmod/md.py: Driver.free_energy, Driver.jacobian, Driver.hessian"]}
{"id": "C67", "title": "free_energy does not modify its argument", "statement": "md.Driver.free_energy(u, ...) leaves the array passed by the caller unchanged.", "quantifier": "every displacement", "why_tests_cant": "Aliasing.", "anchors": ["elphmod/md.py: Driver.free_energy"]}
{"id": "C68", "title": "xyz trajectories round-trip", "statement": "After any history of md.Driver.to_xyz calls (overwriting or appending) into a new or overwritten file, from_xyz restores the last written displacements to the printed nine decimals on all processes; a reader with another reference structure obtains the same positions, atoms with other names are left alone, files with another number of atoms change nothing, and files that end too early (between two lines) raise an exception.", "quantifier": "every history of to_xyz calls, every structure and every point at which writing stops", "why_tests_cant": "Histories, real-valued displacements and crash points.", "anchors": ["elphmod/md.py: Driver.to_xyz, Driver.from_xyz"]}
{"id": "C69", "title": "Saving and loading drivers, also if storing fails", "statement": "md.Driver.save leaves all attributes of the driver as they were, and md.Driver.load returns a driver with the same attributes except for new communicators and closed plots. This also holds for drivers with sparse matrices, and attributes that are temporarily removed are restored if storing fails.", "quantifier": "every driver and every failure of the storage", "why_tests_cant": "Exceptions at all points.", "anchors": ["elphmod/md.py: Driver.save, Driver.load", "elphmod/MPI.py: Buffer"]}
{"id": "C70", "title": "The electron density adds up to the number of electrons", "statement": "md.Driver.density and density_per_atom add up to the number of electrons.", "quantifier": "every orthonormal eigenvector set and occupation", "why_tests_cant": "Infinite domain.", "anchors": ["elphmod/md.py: Driver.density, Driver.density_per_atom"]}
{"id": "C71", "title": "Coulomb-model supercells and Fourier transforms agree with the hopping ones", "statement": "elel.Model.W/WR/supercell/standardize obey the analogues of C32-C33 and C39.", "quantifier": "every model", "why_tests_cant": "Infinite family.", "anchors": ["elphmod/elel.py: Model.W, Model.WR, Model.supercell, Model.standardize"]}
{"id": "C72", "title": "Susceptibility weights have a definite sign and the right degenerate limit", "statement": "diagrams: the quotient (f(x) - f(y)) / (x - y) used for bare susceptibilities is nonpositive for decreasing f, symmetric, and is replaced by the derivative in the degenerate case, to which it converges. For finite frequencies, the phonon self-energy is the documented sum, obeys the symmetries under conjugate and opposite frequencies, and for imaginary frequencies lies between the static value and zero.", "quantifier": "every pair of energies", "why_tests_cant": "Degenerate limit.", "anchors": ["elphmod/diagrams.py: susceptibility, polarization, phonon_self_energy"]}
{"id": "C73", "title": "Grand potential shortcut equals the sum of energy and entropy", "statement": "diagrams.grand_potential: the closed form for Fermi-Dirac equals the general expression with entropy.", "quantifier": "every energy and temperature", "why_tests_cant": "All reals.", "anchors": ["elphmod/diagrams.py: grand_potential", "elphmod/occupations.py: fermi_dirac"]}
{"id": "C74", "title": "Model Hamiltonians are Hermitian and the model phonons obey the acoustic sum rule", "statement": "elphmod.models (chain, graphene, tas2): Hamiltonians and dynamical matrices are Hermitian at every k, the dynamical matrix annihilates rigid translations at q = 0, the coupling to rigid translations vanishes at q = 0 (for chain and tas2 the coupling itself), g(q, k) = g(-q, k+q)^dagger, and all functions are periodic in reciprocal space and turn into their complex conjugates if the wave vectors are reversed.", "quantifier": "every parameter and wave vector", "why_tests_cant": "All reals.", "anchors": ["elphmod/models/chain.py", "elphmod/models/graphene.py", "elphmod/models/tas2.py"]}
{"id": "C75", "title": "McMillan averages are weighted by orbit size", "statement": "eliashberg.McMillan: summing over irreducible q points weighted with their number of images equals the sum over the full mesh for symmetric functions.", "quantifier": "every mesh and symmetric function", "why_tests_cant": "Infinite family.", "anchors": ["elphmod/eliashberg.py: McMillan", "elphmod/bravais.py: irreducibles, images"]}
{"id": "C76", "title": "Distributing hoppings over Wigner-Seitz images preserves the Hamiltonian on the mesh", "statement": "When el.Model is read together with a *_wsvec.dat file, every hopping is divided evenly among its equivalent images; H(k) is unchanged at every k point where the images are in phase (in particular on the k mesh of the Wannier calculation), and elsewhere is the average over the images. A pair of orbitals missing in the file raises KeyError.", "quantifier": "every model and every table of images", "why_tests_cant": "Infinite family of models and image tables.", "anchors": ["elphmod/el.py: Model.__init__, read_wsvecdat"]}
{"id": "C77", "title": "complete_k() reconstructs a covariant quantity on both meshes", "statement": "bravais.complete_k(wedge, nq), applied to data for the sorted irreducible q points, returns F(q, k) on the full q and k meshes for every quantity F that is invariant under simultaneous lattice symmetries of q and k; the symmetries used are all isometries of the lattice.", "quantifier": "all mesh sizes nq and nk and every covariant F", "why_tests_cant": "Infinite family.", "anchors": ["elphmod/bravais.py: complete_k, symmetries, irreducibles"]}
{"id": "C78", "title": "McMillan's formula is monotonic", "statement": "eliashberg.Tc is positive, proportional to the phonon energy, never increases with the Coulomb pseudopotential and never decreases with the coupling strength as long as the net attraction exceeds the lower bound of 0.001 imposed by the code (below, it decreases with the coupling).", "quantifier": "all real parameters", "why_tests_cant": "Uncountable domain.", "anchors": ["elphmod/eliashberg.py: Tc"]}
{"id": "C79", "title": "Fourier interpolation reproduces the data on the mesh", "statement": "bravais.Fourier_interpolation(data, angle, sign) yields a function periodic in both arguments that agrees with the (real) data at all mesh points up to the dropped coefficients, i.e. up to nk^2 times 1e-6, and exactly if only zero coefficients are dropped.", "quantifier": "all mesh sizes, data, angles and signs, all real arguments (periodicity)", "why_tests_cant": "Infinite family of data and sizes.", "anchors": ["elphmod/bravais.py: Fourier_interpolation, to_Voronoi"]}
{"id": "C80", "title": "ph.q2r reproduces dynamical matrices on their mesh", "statement": "ph.q2r(ph, D_full=...): for dynamical matrices with D(-q) = conj(D(q)), the resulting model (without sum rules applied) has exactly the given dynamical matrices at all q points of the mesh, with masses divided as requested by either side.", "quantifier": "every mesh, number of atoms, masses, time-reversal symmetric dynamical matrices and number of processes", "why_tests_cant": "Infinite family.", "anchors": ["elphmod/ph.py: q2r, Model.__init__, divide_by_mass", "elphmod/bravais.py: wigner"]}
{"id": "C81", "title": "elel.q2r reproduces the interaction on its mesh", "statement": "elel.q2r(elel, W, a, r): the resulting model reproduces the given interaction at all q points of the mesh.", "quantifier": "every mesh, number of orbitals, interaction and number of processes", "why_tests_cant": "Infinite family.", "anchors": ["elphmod/elel.py: q2r", "elphmod/bravais.py: wigner"]}
{"id": "C82", "title": "Primitive vectors span the documented Bravais lattice", "statement": "bravais.primitives(ibrav, ...): simple lattices have the lengths and angles given by a, b, c, cosbc, ... (in angstrom) or celldm (in bohr); centered lattices consist of the corresponding simple lattice and the centers of its body, faces or base.", "quantifier": "every supported ibrav except 0 and all real parameters for which the cell exists", "why_tests_cant": "Uncountable domain.", "anchors": ["elphmod/bravais.py: primitives"]}
{"id": "C83", "title": "A new driver starts from the given structure and force constants", "statement": "md.Driver(...): the undisplaced structure is free of forces, and with unscreen=True the force constants obtained for it are those of the given phonon model; this remains true whenever the displacements are reset, whatever was done with the driver in between.", "quantifier": "every Hamiltonian, coupling, force constants, temperature, smooth smearing function and history of the driver", "why_tests_cant": "Uncountable domain; histories are unbounded.", "anchors": ["elphmod/md.py: Driver.__init__, Driver.jacobian, Driver.hessian"]}
{"id": "C84", "title": "Screened couplings agree in the band and in the orbital basis", "statement": "diagrams.renormalize_coupling_band and renormalize_coupling_orbital: transforming the couplings to the band basis commutes with the renormalization, density-density interactions are a special case of general ones, and without interaction couplings are unchanged.", "quantifier": "every mesh, number of bands and orbitals, eigenvectors, interaction and coupling", "why_tests_cant": "All arrays of all shapes.", "anchors": ["elphmod/diagrams.py: renormalize_coupling_band, renormalize_coupling_orbital, Pi_g"]}
{"id": "C85", "title": "The Fan-Migdal self-energy is causal", "statement": "diagrams.fan_migdal_self_energy: for frequencies above the real axis the imaginary part is not positive, and the values at complex-conjugate frequencies are complex conjugate.", "quantifier": "every mesh, dispersion, coupling, temperature and frequency", "why_tests_cant": "All reals and all shapes.", "anchors": ["elphmod/diagrams.py: fan_migdal_self_energy"]}
{"id": "C86", "title": "The Green-Kubo conductivity is symmetric, nonnegative and even in the frequency", "statement": "diagrams.green_kubo_conductivity: direct and optical conductivities are symmetric matrices without negative eigenvalues, the same for opposite frequencies, and frequency meshes are refused exactly if they are not equidistant or do not include zero.", "quantifier": "every velocity, spectral function, temperature and frequency mesh", "why_tests_cant": "All arrays and index shifts.", "anchors": ["elphmod/diagrams.py: green_kubo_conductivity"]}
{"id": "C87", "title": "Double Fermi-surface averages are averages", "statement": "diagrams.double_fermi_surface_average: the quotient of enumerator and denominator lies between the smallest and the largest coupling, the denominator is nonnegative, even in q and its sum over all q is the square of the density of states.", "quantifier": "every mesh, dispersion, coupling and q point", "why_tests_cant": "All arrays of all shapes.", "anchors": ["elphmod/diagrams.py: double_fermi_surface_average"]}
{"id": "C88", "title": "The weights of the third-order diagram are second difference quotients in all degenerate cases", "statement": "diagrams.triangle: the weight of three states is the difference quotient of difference quotients of the occupation, symmetric with respect to permutations, and its derivative (or half of the second derivative) if two (or three) energies agree. The diagram is the documented sum over states at k, k + q and k + Q and does not depend on the phases of the states.", "quantifier": "every three energies and every smearing", "why_tests_cant": "Degenerate limits.", "anchors": ["elphmod/diagrams.py: triangle"]}
{"id": "C89", "title": "Electron-phonon coupling in a supercell is the coupling of the crystal", "statement": "elph.Model.supercell(N1, N2, N3): every matrix element in the supercell equals the one between the same orbitals and displacements in the crystal, Bloch waves couple as before, the sparse variant holds the real part for q = k = 0, and the number of processes does not matter.", "quantifier": "every model, invertible integer supercell, wave vector and number of processes", "why_tests_cant": "All shapes, all wave vectors, all distributions of cells over processes.", "anchors": ["elphmod/elph.py: Model.supercell"]}
{"id": "C90", "title": "Bands on a uniform mesh are complete and ordered consistently", "statement": "dispersion_full returns, for angles of 60, 90 and 120 degrees and any mesh size, values at every mesh point, namely the eigenvalues and eigenvectors at the equivalent irreducible point, all permuted by the returned order, which is a permutation at every point; no element stays uninitialized since every irreducible point is on exactly one of the side paths starting from the main path, and all paths are free of gaps. If the states carry labels that maximize the overlap along the paths, these labels are found on the whole mesh. dispersion_full_nosym applies the same order to the eigenvalues and eigenvectors at the point itself.", "quantifier": "All mesh sizes, the three angles, all numbers of bands, eigenvalues and eigenvectors, with and without order, vectors, mean sorting, energy cutoff.", "why_tests_cant": "The irreducible wedge and the paths depend on the mesh size, its parity and divisibility by three; tests cover a few sizes only.", "anchors": ["elphmod/dispersion.py:dispersion_full", "elphmod/dispersion.py:dispersion_full_nosym", "elphmod/dispersion.py:band_order", "elphmod/bravais.py:irreducibles", "elphmod/bravais.py:images"]}
{"id": "C91", "title": "Unfolding weights are probabilities and select the right wave vector", "statement": "For orthonormal eigenvectors, all unfolding weights lie between zero and one and add up to the number of bands of the symmetric system at each k point. They depend neither on the phases of the eigenvectors nor on the choice of eigenvectors of the symmetric system nor on the number of processes. A supercell state that is a Bloch state of the symmetric system has the weight one at its own wave vector, and equivalent ones, and the weight zero at all other wave vectors that are folded onto the same point. Summed over a complete set of such wave vectors, the weights of any state add up to one. Blocks of orbitals given by the user select orbitals in any order.", "quantifier": "all supercells, numbers of orbitals, wave vectors, eigenvectors, both signs of the phase, all numbers of processes", "why_tests_cant": "A test compares unfolded dispersions for one distorted structure; the sum rules and the selection rule concern all eigenvectors and all supercells.", "anchors": ["elphmod/dispersion.py: unfolding_weights"]}
{"id": "C92", "title": "Coupling interpolated from meshes reproduces the input", "statement": "After the Fourier transform of coupling given on complete meshes of q and k points, with positions of orbitals, the localized model yields exactly the given coupling at all points of both meshes, converted according to whether given and stored coupling are divided by square roots of masses. The same holds for later transforms without positions, and the transform of coupling sampled from the model leaves the model unchanged. After standardization, the coupling evaluated by any group of processes is the given one. If long-range terms are switched on, changed or switched off, an update of the short-range part keeps the total coupling at all points of the original meshes.", "quantifier": "all meshes in one to three dimensions, couplings, numbers of orbitals and atoms, distances, masses, long-range terms, numbers of processes", "why_tests_cant": "The test transforms one sampled model of graphene; reproduction depends on the Wigner-Seitz degeneracies of both meshes for all pairs of orbitals and atoms.", "anchors": ["elphmod/elph.py: q2r, Model.divide_degeneracy, Model.update_short_range, Model.sample_orig, Model.g", "elphmod/bravais.py: wigner"]}
{"id": "C93", "title": "Coupling sampled on meshes is that between the states at k + q and k", "statement": "Sampling the electron-phonon coupling for a list of q points and a mesh of k points yields, for each q of the mesh, the matrix elements of the change of the potential along the displacements of each mode between the eigenstates at k + q (the unique equivalent mesh point) and k, or in the basis of orbitals and displacements where no eigenvectors are given; for q off the mesh, the states at the nearest k + q are used. The result does not depend on the number of processes. The squared variant yields squared absolute values, independent of the phases of the eigenvectors, and for complete eigenvectors the sum over bands and modes is that over orbitals and displacements. Transforming sampled coupling afterwards yields the same as sampling with eigenvectors, and leaves the argument unchanged.", "quantifier": "all couplings, q points, meshes, eigenvectors, numbers of orbitals, displacements and processes", "why_tests_cant": "Tests sample one model with one number of processes; index arithmetic modulo the mesh and invariance under unitary transforms concern all meshes and eigenvectors.", "anchors": ["elphmod/elph.py: sample, transform"]}
{"id": "C94", "title": "Phonon spectral functions are positive and normalized to the number of modes", "statement": "ph.spectral_function(D, omega, eta) returns one value per frequency, in the order of the frequencies, for every number of MPI processes. For omega >= 0 and eta >= 0 no value is negative, also if the dynamical matrices depend on the frequency and contain a phonon self-energy that damps the phonons. For a constant dynamical matrix with the phonon frequencies w_n and eta > 0, the result is the sum over the modes of 4 omega^2 eta / pi / (((omega - w_n)^2 + eta^2) ((omega + w_n)^2 + eta^2)), whatever basis the matrix is given in, and its integral from 0 to infinity is the number of modes.", "quantifier": "all numbers of processes, all matrix sizes, all (also frequency-dependent, non-Hermitian) dynamical matrices, all lists of frequencies and all broadenings", "why_tests_cant": "An integral to infinity and the sign for every matrix cannot be sampled; tests see finite meshes of frequencies and single matrices.", "anchors": ["elphmod/ph.py:spectral_function"]}
{"id": "C95", "title": "Effective coupling and average frequencies are basis-independent, ordered and bounded", "statement": "md.Driver.superconductivity() returns lamda >= 0 for every structure; whatever eigenvectors the eigensolver picks (phases, rotations among degenerate modes, order), the four returned values are those of the textbook averages over the modes with squared frequency >= eps. Whenever lamda > 0, the logarithmic average is at least sqrt(eps), both averages lie within the range of frequencies of the contributing modes, and the logarithmic average does not exceed the quadratic average. If no mode is below the threshold, lamda follows from the inverse of the force constants alone, so it does not change with the atomic masses, and lamda times the squared quadratic average follows from couplings and masses alone, so it does not change with the force constants. The returned minimum frequency is negative if and only if some displacement pattern at one of the q points lowers the energy.", "quantifier": "all numbers of atoms, bands, k and q points, all Hermitian force constants, complex couplings, electron energies and positive masses, all eigensolvers within contract, all thresholds", "why_tests_cant": "Degenerate eigenvectors are an arbitrary choice of the library; inequalities between averages and independence of masses hold for every input, while tests only see one solver and few structures.", "anchors": ["elphmod/md.py:Driver.superconductivity", "elphmod/diagrams.py:double_fermi_surface_average"]}
{"id": "C96", "title": "Coulomb interaction in the band basis belongs to the right momenta, for any number of processes", "statement": "elel.orbital2band(U, H, nq, nk) returns, for each irreducible q point and all pairs of k points, the matrix element of the interaction U(q) between the states of the chosen band at k, k + q, K, and K + q, in the documented array order and independent of the number of processes, whenever the q mesh is part of the meshes of the interaction and of the k points. If the first condition is violated, None is returned. A Hermitian interaction yields a Hermitian result, phases of the states change neither its modulus nor the diagonal k = K, and with dd=True the result is the same for interactions of densities only.", "quantifier": "all mesh sizes, numbers of processes, orbitals, interactions and eigenvectors periodic in reciprocal space", "why_tests_cant": "Index arithmetic on four nested momentum loops, distribution among processes and storage in 8-bit integers must be right for every mesh; tests use tiny meshes, for which no overflow can occur.", "anchors": ["elphmod/elel.py:orbital2band"]}
{"id": "C97", "title": "Hartree energy is a positive quadratic form, independent of origin and units", "statement": "elel.hartree_energy(rho_g, g_vect, ngm_g, uc_volume, a) is half the sum over the nonzero reciprocal lattice vectors of 8 pi |rho(G)|^2 / G^2 times the volume (Rydberg units, G in inverse Bohr radii); it is never negative, vanishes if and only if all components of the density with nonzero G do, does not change when the origin is moved or when the lattice constant and the reciprocal vectors are given in other units, and is quadratic in the density.", "quantifier": "all densities, sets of nonzero reciprocal lattice vectors (the first one being zero), volumes and lattice constants", "why_tests_cant": "Positivity and invariance hold for every density, tests only compare with single values.", "anchors": ["elphmod/elel.py:hartree_energy"]}
{"id": "C98", "title": "The Green's-function bubble converges to the Lindhard function from below", "statement": "Without hybridization, the real part of what diagrams.susceptibility2 returns for any q point of the mesh converges, as the number of Matsubara frequencies grows, to the static Lindhard function 2/nk^2 sum_k [f(e_k) - f(e_{k+q})]/(e_k - e_{k+q}) with the exact Fermi function, the quotient being the derivative for equal energies; so it converges to the result of diagrams.susceptibility without broadening wherever that has no degenerate pairs. With and without hybridization, it never decreases with the number of frequencies, starts from -1/(2 kT), and is the same for q and -q; without, it never exceeds its limit. phonon_self_energy2 sums couplings times the response of each k point with the same limit, does not depend on the number of processes, reduces to the real part of susceptibility2 for couplings of one, and exits if the memory limit is exceeded. (What is false: susceptibility2 is not real.)", "quantifier": "all mesh sizes, energies, positive temperatures, q points, numbers of frequencies, nonnegative hybridization widths and heights, couplings and numbers of processes", "why_tests_cant": "the limit of infinitely many frequencies and its approach for all energies (including degenerate ones) cannot be tested; tests compare a few finite sums with a tolerance", "anchors": ["elphmod/diagrams.py: susceptibility2", "elphmod/diagrams.py: phonon_self_energy2", "elphmod/diagrams.py: susceptibility"]}
{"id": "C99", "title": "Brillouin-zone images and outlines show exactly the first Brillouin zone", "statement": "An image of the Brillouin zone shows the data at exactly those pixels whose centre belongs to the first Brillouin zone (no reciprocal lattice point is closer than the origin) and the value for the outside elsewhere. A visible pixel shows the data set of its angular sector, interpolated at the crystal coordinates of its centre. The image is the smallest box around the zone at the requested resolution, it does not depend on the number of processes, and the outline of the zone encloses the zone.", "quantifier": "all supported lattice angles, orientations, resolutions, numbers of data sets, interpolation functions and numbers of processes", "why_tests_cant": "Pixels, orientations and resolutions form a continuum; a test compares a few pictures and cannot show that the three inequalities used are equivalent to the distance criterion for all reciprocal lattice points.", "anchors": ["elphmod/plot.py: toBZ", "elphmod/bravais.py: BZ, translations, reciprocals"]}
{"id": "C100", "title": "The standard path through the hexagonal Brillouin zone has its corners, distances and mesh points right", "statement": "The path starts and ends at the origin and passes through M (half a shortest reciprocal lattice vector) and K (a point of the first Brillouin zone farthest from the origin), at the returned corner indices. The returned distances are cumulative Cartesian lengths along the path, where at K an equivalent point may be used. The straight variant keeps its direction at K. If only mesh points are requested, the path consists of exactly the points of the mesh that lie on the path.", "quantifier": "all numbers of points, both angles, straight or not, with or without the degeneracy-lifting shift, with or without restriction to a mesh", "why_tests_cant": "The number of points is unbounded and its rounding depends on it; tests look at a few band structures.", "anchors": ["elphmod/bravais.py: GMKG"]}
{"id": "C101", "title": "Changing the range separation leaves the dynamical matrix on the original mesh alone", "statement": "After ph.Model.sample_orig, Born charges, quadrupoles, dielectric constant, range-separation parameter etc. can be changed any number of times. Whenever update_short_range has been called, the full dynamical matrix at the q points of the original mesh is the original one (exactly at q = 0 and if the long-range terms are periodic; otherwise up to half the change of their difference between the equivalent points q and q - G). Only the last change matters. Without sample_orig, the program ends. With apply_asr_simple, rigid translations give no force. sum_force_constants is the sum of absolute values of all force constants except those of an atom with itself, whether or not these have been divided by masses.", "quantifier": "all crystals, masses, meshes, distances, numbers of processes, long-range parameters and histories of changes", "why_tests_cant": "A test compares one material for a few parameters with a tolerance that hides the non-periodicity of the truncated sum.", "anchors": ["elphmod/ph.py: Model.sample_orig, Model.update_short_range, Model.sum_force_constants, Model.D, Model.D_lr, q2r"]}
{"id": "C102", "title": "Quantum ESPRESSO input files round trip", "statement": "Parameters written to an input file with `bravais.write_pwi`, `write_ph`, `write_q2r`, `write_matdyn` or `write_epw` are returned with the same values and types by the corresponding reader, and parameters the file format does not know are absent. Species, atoms, k points and cell of a pw.x input come back with the numbers rounded to the digits written. Writing what has been read reproduces the file. The reader never takes part of a string for a comment, a separator or another parameter.", "quantifier": "all sets of parameters and values (strings, integers, floats, truth values, lists), all numbers of species, atoms, points and all numbers in the geometry", "why_tests_cant": "the parser replaces strings by placeholders, splits at separators and fills indexed lists; whether values collide with these steps depends on the content of all strings together", "anchors": ["elphmod/bravais.py: write_pwi", "elphmod/bravais.py: read_pwi", "elphmod/bravais.py: write_ph", "elphmod/bravais.py: read_ph", "elphmod/bravais.py: write_q2r", "elphmod/bravais.py: read_q2r", "elphmod/bravais.py: write_matdyn", "elphmod/bravais.py: read_matdyn", "elphmod/bravais.py: write_epw", "elphmod/bravais.py: read_epw", "elphmod/misc.py: read_namelists", "elphmod/misc.py: read_input_data"]}
{"id": "C103", "title": "Fortran namelists are read as meant, whatever their layout", "statement": "`misc.read_namelists` returns the names and values of all namelists of a file independent of upper and lower case of names, of white space, commas, semicolons and line breaks between names and values, of blanks around equality signs and before indices, of comments and of other text between the namelists. Several values after one equality sign form a list, an index sets the position of the first one; if a name is used again, the elements assigned last count and the others are kept. Logical values and numbers are recognized in all Fortran notations. Strings are kept as they are.", "quantifier": "all files with any number of namelists, assignments, values and any separators, names and strings", "why_tests_cant": "the layouts of a file are infinite in number and the parser works on the whole text with regular expressions, whose matches depend on everything around them", "anchors": ["elphmod/misc.py: read_namelists", "elphmod/misc.py: read_input_data"]}
{"id": "C104", "title": "Dynamical matrices at irreducible q points determine the model", "statement": "Calling q2r with the dynamical matrices of a symmetric two-dimensional crystal (threefold rotation and reflection map each atom onto itself or a periodic image of itself and the force constants of bonds onto those of the mapped bonds) at the irreducible points of a hexagonal mesh yields a mass-spring model with the dynamical matrices of the crystal at all points of the mesh. Every matrix that is completed by symmetry is the one of the crystal at that point; which points are completed depends on the given points only.", "quantifier": "all mesh sizes, all symmetric crystals of any range and number of atoms, all given mesh points, both hexagonal settings and the square lattice, all numbers of processes", "why_tests_cant": "The phases for atoms that are mapped onto other cells matter only for particular combinations of symmetry operation, atom and q point; a test covers one crystal and one mesh.", "anchors": ["elphmod/ph.py:q2r", "elphmod/bravais.py:irreducibles"]}
{"id": "C105", "title": "Sums over atomic projections cover exactly the selected orbitals", "statement": "`el.proj_sum` returns for each group of names, given as a comma-separated list with nested curly braces, the sum of the projections onto exactly those orbitals that have all components (element, number of the atom, radial function, shell, symmetry label) given in one of the names. Orbitals that several names select count once. Weights of groups that partition the orbitals add up to the total weight; the remaining weight is what is missing to one.", "quantifier": "all lists of orbital names, all groups with any nesting of braces and white space, all projections", "why_tests_cant": "names are matched by a regular expression whose parts are all optional, so that components could be mixed up for particular names only; the groups form an infinite language", "anchors": ["elphmod/el.py:proj_sum", "elphmod/misc.py:split"]}
{"id": "C106", "title": "Orbitals listed by projwfc.x get unique names that can be selected", "statement": "`el.read_projwfc_out` returns one name per state listed in the output of projwfc.x, in that order, with species, radial function and symmetry label (shell only with spin-orbit coupling) of the state. States that agree in all of these are numbered in order of appearance, all others are not. All names are different and are what `el.proj_sum` understands. The result does not depend on the order in which a Python set is iterated over.", "quantifier": "all output files with up to 9999 states, all surrounding text, all orders of iteration over a set", "why_tests_cant": "the order of iteration over a set of strings changes from process to process; collisions occur for particular combinations of names only", "anchors": ["elphmod/el.py:read_projwfc_out"]}
{"id": "C107", "title": "Models of distorted structures reproduce the state of the driver", "statement": "MD driver.electrons(dk1, dk2, dk3, rydberg) returns a tight-binding model of the current structure: at every k point of the (reduced) mesh its Hamiltonian is the one of the displaced atoms, linear in the displacements, relative to the chemical potential and in the requested unit, up to hoppings smaller than 1e-10 of the largest one. driver.phonons(divide_mass) returns a mass-spring model of the current structure: its atoms are displaced, and on the q mesh its dynamical matrix is the matrix of second derivatives of the free energy, divided by masses if requested.", "quantifier": "all Hermitian Hamiltonians and couplings, displacements, chemical potentials, k and q meshes, steps, orbitals, atoms, masses and numbers of processes; sparse and dense drivers; any diagonalization routine that returns an eigensystem", "why_tests_cant": "meshes, displacements and couplings are arbitrary real and complex data; a test with one mesh cannot tell whether steps that do not divide the mesh or long-range terms are treated correctly", "anchors": ["elphmod/md.py:Driver.electrons", "elphmod/md.py:Driver.phonons", "elphmod/el.py:k2r", "elphmod/el.py:Model.standardize", "elphmod/ph.py:q2r"]}
{"id": "C108", "title": "Files with band structures are read independent of their layout and round-trip", "statement": "el.read_bands restores the k points and energies of any file with a header (numbers of bands and k points) and one block per k point, no matter how the energies are distributed among lines and whether the k point is marked with asterisks; the abscissa starts at zero and grows by the distance of subsequent k points; a file that ends too early is rejected with StopIteration. What el.write_bands has written is read back to six decimals (k points) and the decimals of the chosen format (energies), exactly if the numbers have no more decimals.", "quantifier": "all k points, energies, numbers of bands and k points, widths and decimals of the format, numbers of columns and layouts of the lines; all points at which a file may be cut", "why_tests_cant": "a test writes one file in the default format; whether the last line of a block is complete depends on the number of bands and columns", "anchors": ["elphmod/el.py:read_bands", "elphmod/el.py:write_bands"]}
{"id": "C109", "title": "Files with Coulomb interactions are read element by element", "statement": "elel.read_local_Coulomb_tensor and elel.read_orbital_Coulomb_interaction set each element of the tensor to the value on the last line of the file with the corresponding orbitals (counted from one) and q point (up to reciprocal lattice vectors, rounded to the next point of the mesh); all other lines have no influence, and elements without a line are not set. With dd=True, the result consists of the elements U[i, i, k, k] of the full tensor. elel.read_band_Coulomb_interaction assigns line (((iQ nk + k1) nk + k2) nk + K1) nk + K2 to the element iQ, k1, k2, K1, K2, restores what elel.write_band_Coulomb_interaction has written to nine decimals, and rejects files that are too short.", "quantifier": "all files, orders of lines, duplicates, numbers of orbitals, q meshes, k points and values", "why_tests_cant": "elements are stored independently, so that errors in one of them, e.g. due to rounding of a q point or the order of indices, do not show up in tests of others", "anchors": ["elphmod/elel.py:read_local_Coulomb_tensor", "elphmod/elel.py:read_orbital_Coulomb_interaction", "elphmod/elel.py:read_band_Coulomb_interaction", "elphmod/elel.py:write_band_Coulomb_interaction"]}
{"id": "C110", "title": "Files with quadrupole tensors and q points", "statement": "Reading a file with quadrupole tensors yields, for each atom and direction, the symmetric tensor in the last line about them, and zero if there is no such line; the number of atoms is the largest number in the file. Lines without exactly two integers and six numbers are an error. Tensors that are written and read again are restored to ten decimals, provided that they are symmetric. Lists of q points that are written and read again are restored to fifteen decimals.", "quantifier": "all files, all tensors, all meshes and lists of q points", "why_tests_cant": "The layout of files, the order of lines and the widths of columns, which depend on the numbers, cannot be covered by examples.", "anchors": ["elphmod/ph.py: read_quadrupole_fmt", "elphmod/ph.py: write_quadrupole_fmt", "elphmod/ph.py: read_q", "elphmod/ph.py: write_q"]}
{"id": "C111", "title": "Polygons for the composition along a line", "statement": "The polygons for the composition along a line (compline) are closed and stacked without gaps or overlaps. The height of each polygon at each point is the share of the component, and its area is the integral of the share. The stack is centered about the line, or starts from zero.", "quantifier": "all numbers of points and components, all coordinates and shares", "why_tests_cant": "The polygons depend on all shares at all points; tests only look at single pictures.", "anchors": ["elphmod/plot.py: compline"]}
{"id": "C112", "title": "Arranging images and moving the columns of an image", "statement": "plot.arrange tiles images of equal size without gaps, from left to right and top to bottom; the number of columns is the smallest divisor of the number of images not below the requested number (default: the square root). plot.adjust_pixels maps the given columns of an image to columns of the new image at the given distances, up to rounding, where the first and last point become the first and last column, and interpolates the image linearly in between; every element of the new image is set, and columns at the given points are unchanged if the height is. Points that fall onto the same new column and images with a single row are errors.", "quantifier": "all numbers, sizes and contents of images, all requested numbers of columns, all increasing points and distances", "why_tests_cant": "The search for a divisor, the slices and the bookkeeping of blocks depend on the number and size of the images; a few pictures do not show that no pixel is lost, left unset or shifted.", "anchors": ["elphmod/plot.py: arrange, adjust_pixels"]}
{"id": "C113", "title": "Isolines are exactly the points of given energy in the Brillouin zone", "statement": "dos.isoline returns a function that yields contours for a given energy. Every point on the straight lines of every contour is in the first Brillouin zone and has this (linearly interpolated) energy; no point of a later contour is at the end of an earlier one; the points drawn depend neither on the number of processes nor on the order of elements of sets. If the number of mesh points per direction is a multiple of three and the energy differs from those at and halfway between mesh points, all points of the Brillouin zone with this energy are drawn. For other meshes, points near the corners of the Brillouin zone are missing, and there is a TypeError if the energy equals the two lower ones of a triangle.", "quantifier": "all square arrays of energies, all energies, all numbers of processes, all orders of iteration over sets", "why_tests_cant": "Completeness is a statement about a continuum of points and all meshes; the set order and number of processes vary between runs.", "anchors": ["elphmod/dos.py: isoline", "elphmod/bravais.py: linear_interpolation, to_Voronoi"]}
{"id": "C114", "title": "Coupling written to XML files can be read from them", "statement": "If elph.write_xml_files has written an array of couplings for all q points, representations, k points and bands, elph.read_xml_files with old=True reads, for any choice of q points and representations and any distinct bands in any order and for any number of processes, an array whose real and imaginary parts agree with the original ones in 15 decimal digits after the first one. With the default old=False, every such attempt ends with a ValueError. An array for a single band with squeezed axes is written as if its k axes were bands.", "quantifier": "all arrays, selections of q points, representations and bands, numbers of processes, lattice angles and previous contents of memory", "why_tests_cant": "The files contain formatted floats of any magnitude, and k points must be recognized from rounded Cartesian coordinates for all mesh sizes.", "anchors": ["elphmod/elph.py: write_xml_files, read_xml_files"]}
{"id": "C115", "title": "Matrix elements from files of irreducible points are complete", "statement": "elph.coupling reads one file per q point, for any number of processes. Without completion, each element is the value on the last line of the file with the corresponding k point, mode and bands (counted from one, bands after subtraction of the offset), and NaN if there is none; comments and bands beyond the requested ones are ignored. With completion, if the elements are symmetric functions of the k point, lines for irreducible k points are sufficient to get the elements at all k points. With complete_k, if the elements are invariant under simultaneous symmetry operations on q and k points, the files for the irreducible q points yield the elements on the full meshes. Bands up to the offset, however, are not skipped but overwrite elements of other bands or raise an IndexError.", "quantifier": "all files, numbers of processes, modes, k points and bands, offsets, and functions with the respective symmetry", "why_tests_cant": "The elements that are read depend on all lines of all files and on symmetries of meshes of any size.", "anchors": ["elphmod/elph.py: coupling", "elphmod/bravais.py: complete, complete_k"]}
{"id": "C116", "title": "Decay plots pair each matrix element with its own distance", "statement": "The decay method of a phonon model created from force constants lists every nonvanishing 3 x 3 block exactly once, with the length of its own bond (within the tolerance of the search for shortest bonds) and its Frobenius norm, for any mesh, basis, masses and number of processes. decay_epmate and decay_epmatp list, in order, exactly the lattice vectors with nonvanishing electron-phonon matrix elements, with their lengths and the greatest absolute value; decayH lists all lattice vectors of the Hamiltonian. The bond lengths are not updated by order_atoms, however: after a change of the order of atoms, blocks are listed with lengths of other bonds or zero. Without division by the degeneracy, blocks that do not belong to shortest bonds have zero length.", "quantifier": "all meshes, numbers of atoms, force constants, masses, bond lengths and numbers of processes; all couplings and Hamiltonians", "why_tests_cant": "The pairing of two flattened arrays must be right for each of arbitrarily many blocks, after any transformation of the model.", "anchors": ["elphmod/ph.py: Model.decay, Model.order_atoms", "elphmod/bravais.py: short_range_model, wigner", "elphmod/elph.py: Model.decay_epmate, Model.decay_epmatp", "elphmod/el.py: decayH"]}
{"id": "C117", "title": "Input files of Wannier90 are read as written, but for the mesh", "statement": "For all well-formed input data (optional parameters, projections, path, unit cell, atoms, mesh and k points), the file written by write_win, with the colon after mp_grid replaced by an equality sign, is read by read_win as the same data: parameters exactly, coordinates up to nine decimals; other data such as wannier_plot are lost. With the colon, however, no file written by write_win can be read by read_win: the mesh is not recognized and reading the k points raises UnboundLocalError.", "quantifier": "all well-formed input data, for any number of projections, lines of the path, atoms and k points", "why_tests_cant": "The text of the file depends on arbitrary labels, lines and numbers of any length; a mistake in the recognition of any of them would change other data.", "anchors": ["elphmod/bravais.py: read_win, write_win"]}
{"id": "C118", "title": "Energies in the output of pw.x are found wherever they are", "statement": "For every output of a self-consistent calculation of pw.x, with any number of bands and k points and any other lines in between, read_Fermi_level, read_pwo and read_eps_nk_from_qe_pwo return the energies of all bands at all k points, the k points and their weights, the kind and width of the smearing, the Fermi level, the number of electrons and the total energy as printed, and agree with one another. Exceptions, for which this is refuted: read_pwo raises UnboundLocalError for insulators without empty bands, read_Fermi_level returns None for insulators with empty bands, read_eps_nk_from_qe_pwo fails for 10000 k points or more and without smearing.", "quantifier": "all outputs that have the lines of interest in the formats of Quantum ESPRESSO, with any other lines that do not contain the keywords", "why_tests_cant": "The number of bands, k points and other lines is unbounded; energies span a different number of lines for different numbers of bands.", "anchors": ["elphmod/el.py: read_Fermi_level, read_pwo, read_eps_nk_from_qe_pwo"]}
{"id": "C119", "title": "Band energy and entropy contribution sum over the requested bands and belong together", "statement": "eband and demet_from_qe_pwo return the weighted sums of occupied energies and of entropies over all k points and exactly the requested bands, once each, with negative indices counted from the end; by default all bands are summed, complementary subsets add up to the total, wrong indices raise IndexError. Both belong together: the derivative of eband + demet - mu N with respect to any energy is the weighted occupation, and demet is negative. Exception, for which this is refuted: arrays of two or more indices, which the documentation allows, raise ValueError.", "quantifier": "all numbers of k points and bands, energies, weights, chemical potentials, smearing widths, lists of bands, Fermi-Dirac (arguments up to 709), Gaussian and Marzari-Vanderbilt smearing", "why_tests_cant": "A derivative is a limit, and the list of bands is arbitrary.", "anchors": ["elphmod/el.py: eband, demet_from_qe_pwo"]}
{"id": "C120", "title": "Energy contributions are the last ones printed", "statement": "For every file, read_energy_contributions_scf_out returns a dictionary with the value from the last line that begins with the word for the respective contribution, for exactly those contributions that occur; lines that only look similar are ignored, lines without value raise IndexError. For the format of pw.x, the values have all digits even if they are not separated from the equals sign.", "quantifier": "all files; all sequences of lines with energies of any size and other lines", "why_tests_cant": "The number and order of lines is arbitrary, and comparisons with substrings might confuse contributions for some lines.", "anchors": ["elphmod/el.py: read_energy_contributions_scf_out"]}
{"id": "C121", "title": "Tables of energies, symmetry points and matrix elements are read completely and in order", "statement": "read_symmetry_points returns the positions of all symmetry points in the output of bands.x in order, read_bands_plot returns the path once and the energies of all bands at all points with the band as second index and refuses numbers of bands that do not fit, read_wannier90_eig_file puts the energies in the right place whatever the order of the lines, read_decayH returns all pairs of numbers in order. Exceptions, for which this is refuted: files *.eig with 10000 k points or more, and a single band at a single point.", "quantifier": "all numbers of bands and points, energies, orders of lines and comments in between", "why_tests_cant": "Numbers of lines and their order are unbounded.", "anchors": ["elphmod/el.py: read_symmetry_points, read_bands_plot, read_wannier90_eig_file, read_decayH"]}
{"id": "C122", "title": "Plots, rectified selections, colour bars and colours", "statement": "plot.plot shows in every pixel the linear interpolation of the mesh at the centre of the pixel, with the largest ky at the top, whatever the number of processes. Pixels at points of the mesh show the value of the mesh, and moving the window by a reciprocal lattice vector does not change the plot. plot.rectify samples the quadrangle with the given corners uniformly and cuts out rectangles of whole pixels exactly. plot.colorbar draws values that grow linearly from the minimum at the bottom to the maximum at the top and leaves all other pixels alone. plot.color assigns to every data point the colour of its position between minimum and maximum, whatever the number of processes and invariant under shifting and scaling of the data; a colormap can be used for several images.", "quantifier": "all meshes, windows, resolutions, lattice vectors, corner points, images, ranges, colormaps and numbers of processes", "why_tests_cant": "Tests draw a few images; the position of every pixel, the periodicity and the independence of the number of processes concern all meshes, windows and process counts.", "anchors": ["elphmod/plot.py: plot", "elphmod/plot.py: rectify", "elphmod/plot.py: colorbar", "elphmod/plot.py: color"]}
{"id": "C123", "title": "Cube files and grids in real space", "statement": "misc.read_cube returns the origin, the spanning vectors (number of points times step), the atoms, the shape and the data of every Gaussian cube file, with data[i, j, k] the value at the corresponding point, and refuses files with the wrong number of values. misc.real_space_grid runs from the origin along the spanning vectors in equal steps, both end points included. The volume element dV of el.Model is the volume between neighbouring points, and read_cube and real_space_grid fit together.", "quantifier": "all cube files (numbers of atoms, shapes, spacing of words, numbers of values per line), all origins, shapes and spanning vectors", "why_tests_cant": "Tests read one file; that every well-formed file is read correctly, whatever its layout, and that no value ends up at another point, concerns infinitely many files and grids.", "anchors": ["elphmod/misc.py: read_cube", "elphmod/misc.py: real_space_grid", "elphmod/el.py: Model"]}
{"id": "C124", "title": "Crystal structures in POSCAR files", "statement": "bravais.readPOSCAR returns the lattice vectors, multiplied by the scale, and the positions of all atoms by element for every POSCAR file with or without selective dynamics.", "quantifier": "all POSCAR files: titles, scales, lattice vectors, elements, numbers of atoms, positions, flags, spacing of words", "why_tests_cant": "Tests read one file; the statement concerns all files, with any number of elements and atoms and any layout of the lines.", "anchors": ["elphmod/bravais.py: readPOSCAR"]}
{"id": "C125", "title": "Frequencies and couplings in EPW output", "statement": "elph.read_prtgkk puts every frequency and every coupling of an EPW output file with prtgkk at its q point, mode, k point and pair of bands, whatever other lines the file contains, and initializes all of them if the output is complete. Output that ends within a table, with more q or k points than announced or with a k point before any q point is rejected. elph.read_L returns the number after the last L at the beginning of a line and None if there is no such line.", "quantifier": "all output files: numbers of q points, modes, k points and bands, values, layout of lines, lines in between", "why_tests_cant": "Tests read one file; that no value ends up at the wrong indices and no element of the uninitialized arrays remains unset concerns all sizes and all files.", "anchors": ["elphmod/elph.py: read_prtgkk", "elphmod/elph.py: read_L"]}
{"id": "C126", "title": "Couplings on meshes in EPW output", "statement": "elph.read_EPW_output returns, for every selected q point and every k point of the mesh, the coupling (in eV) from the table below the first appearance of this q point in the output, up to reciprocal lattice vectors and the tolerance eps, and NaN where there is no such table or where a q point is selected repeatedly. Points off the mesh and q points that have not been selected are ignored. There is a warning if and only if an element is NaN. If all tables are there and no q point is selected twice, everything is read.", "quantifier": "all output files, selections of q points, meshes, numbers of modes and bands, tolerances below 1/2, real and complex couplings", "why_tests_cant": "Tests read one file on one mesh; that no coupling is attributed to another point concerns all orders of points, meshes, folding and selections.", "anchors": ["elphmod/elph.py: read_EPW_output"]}
{"id": "C127", "title": "Reading and writing of fields in XCrySDen format", "statement": "misc.read_xsf returns origin, spanning vectors, symbols and positions of atoms, numbers of points and, at each point of the grid, the value of any file in XSF format, in which the first index is the fastest, no matter how many values each line holds and what stands before, between and after the blocks. Files without atomic coordinates are rejected. What misc.write_xsf writes is such a file, with all numbers correct to the digits printed, and reading it again returns the same field.", "quantifier": "all fields, shapes, lattices, lists of atoms and layouts of the file", "why_tests_cant": "The order of the values in the file only matters for shapes with more than one nontrivial dimension and the line breaks only for particular numbers of points; a test covers a few shapes, often cubic and symmetric ones.", "anchors": ["elphmod/misc.py: read_xsf, write_xsf"]}
{"id": "C128", "title": "Supercell vectors from Wannier90", "statement": "el.read_wsvecdat returns, for every lattice vector and pair of orbitals in a _wsvec.dat file, all supercell vectors listed for them, with orbitals counted from 0, and nothing for others. Of several blocks for the same indices, the last one counts. Files that end within a block and files with lines other than five integers where a block should start are rejected. If there is no file, the result is None and there is a warning.", "quantifier": "all files: numbers of blocks and of vectors per block, values, white space, points of truncation", "why_tests_cant": "Tests read one file; that no vector is lost or attributed to another pair of orbitals and that no truncated file is accepted concerns all files and all points of truncation.", "anchors": ["elphmod/el.py: read_wsvecdat"]}
{"id": "C129", "title": "Displacement patterns from XML files", "statement": "elph.read_patterns returns, for all selected q points in any order, the real parts of all elements of all displacement patterns in the XML file for that q point (whose number is the index plus one), whatever else the files contain, and warns if and only if the file states a different number of representations. Missing files, files with fewer patterns than requested and files that do not state the number of representations are rejected.", "quantifier": "all selections of q points, numbers of representations, values and files", "why_tests_cant": "Tests read one set of files; that no element is attributed to another pattern or q point and that no incomplete file is accepted concerns all files and selections.", "anchors": ["elphmod/elph.py: read_patterns"]}
