# A Rocq model of elphmod

`/repo` is janberges/elphmod, a Python/NumPy/MPI package for tight-binding,
mass-spring and electron-phonon models. This directory holds

* `properties.jsonl` – the properties (written by `tools/props.py`),
* `rocq/theories` – the model, the specifications and the proofs,
* `MANIFEST.json` – which theorem settles which property,
* `seeded/LOG.jsonl` – wrong programs the theorems were tried against.

## How the model is organised

For each area there are four kinds of files:

* `<Area>Model.v` – Gallina functions mirroring the Python functions branch by
  branch; each definition cites file and lines in `/repo`. No proofs.
* `<Area>Spec.v` – small specification vocabulary that does not use the model
  (only where a property needs notions beyond the standard library).
* `<Area>Proofs.v` – lemmas.
* `<Area>Props.v` – the property theorems, each closed by `exact lemma.` and
  followed by `Print Assumptions` and by an `Example` that a non-trivial case
  meets the hypotheses.

Conventions

* Python `int` → `Z` (or `nat` for lengths and indices), unbounded, as in
  Python. NumPy integer arrays (64 bit) are modelled by unbounded `Z`, too;
  wrap-around is modelled where it matters (uint8 band labels).
* Python/NumPy `float` and `complex` → exact real or complex numbers, or an
  abstract commutative ring/group where nothing else is needed. **Rounding is
  not modelled.** Files are modelled as lists of characters (Text.v), with the
  rounding of printed decimals, or as lists of words (C14).
* Exceptions are values (`option` or a sum type), never defaults.
* MPI processes are modelled as a list of ranks; collective operations by
  their contract in the MPI standard; where the claim is about schedules, by a
  small-step interleaving semantics with barriers.
* The file system is a map from names to contents; crash points are prefixes
  of the sequence of primitive file operations.
* In-place mutation is modelled by passing the new value on; where aliasing
  is the point, by an explicit store.

## Plan per property

| id | modelled | proof |
|----|----------|-------|
| C01 | `distribute` over `Z`/lists | closed forms for `size // chunks` plus cumulated sums |
| C02 | `Scatterv`/`Gatherv` by contract on top of C01 | tiling lemma by induction over the chunks |
| C03 | `Split` by contract (stable sort by key = old rank) | arithmetic, counting ranks below r in a residue class |
| C04 | processes × nodes, small-step schedule with node-broadcast and barrier | invariant over reachable states |
| C05 | file system map, `Buffer` object, op histories | refinement to a map, induction over histories |
| C06 | `open('wb')`, `write`, `close` as primitive steps with crash points | refuted by witness; weaker claim proved |
| C07 | filter by `i mod size = rank`, sum over ranks | permutation by induction |
| C08 | per-process programs of `sample`, schedules | refuted by a schedule witness |
| C09 | `vector_index` | induction |
| C10 | relabelling loops of `group` | invariant: label classes = equivalence closure of processed pairs |
| C11 | `split` on strings/tokens | refinement to a product grammar |
| C12 | `differential` over R | telescoping sums |
| C13 | index order of writer and reader | refuted by witness; transposed version proved |
| C14 | writer and reader at token level | induction over q points |
| C15 | guard on `sys.argv` and formula | refuted guard; formula proved by `field` |
| C16 | `StatusBar` state machine | invariant over op sequences |
| C17, C18 | `supercell`, `to_supercell` over `Z` | divmod characterisation of the box filter, adjugate matrix, counting of residues |
| C19–C21 | `images`, `irreducibles`, `complete` | group closure modulo nk; fold invariants |
| C22 | `stack` | fold invariant |
| C23 | `linear_interpolation` on both meshes | case analysis on the triangles, `nra`/`field` |
| C24–C26 | `to_Voronoi`, `wigner`, `short_range_model` | filter of minimal distance; partition of unity; periodicity of exp on the mesh |
| C27 | `path` | induction over corners |
| C28 | `reciprocals`, conversions | `field` |
| C29 | `point_on_path` | refuted by witness; 2D version proved |
| C30 | `mesh`, `kpoints` | induction over dimensions |
| C31 | `primitives` with an explicit store for the list | refuted by witness |
| C32–C39 | models as lists of (R, matrix); Fourier sums over C | finite-sum algebra |
| C40, C26 | discrete Fourier transform | orthogonality of roots of unity |
| C41 | token-level writer and reader | induction, 15 per line chunking |
| C42–C44 | smearing functions over R | Coquelicot derivatives |
| C45 | fixed-point loop with fuel, abstract occupation | partial correctness at loop exit |
| C46 | list of frequencies | closed form |
| C47–C49 | triangle formulas | real case analysis; integrals by Coquelicot |
| C50 | greedy assignment with abstract overlaps | loop invariant: remaining ++ chosen is a permutation |
| C51 | per-process variables versus shared arrays | refuted by witness |
| C52–C55 | finite sums over a ring | algebra, Gram–Schmidt by induction |
| C56 | real formulas | algebra |
| C57 | token-level reader/writer | induction; refutations for the header fields |
| C58 | as C32–C36 on the phonon class | shared lemmas; refutations for aliasing |
| C59, C60 | masses, folding to mesh | algebra, root-of-unity periodicity |
| C61 | cache state machine | invariant; refuted with `asr`/`q2r` in the history |
| C62–C64 | index bookkeeping | shared lemmas; refutation for the allocation bug |
| C65–C70 | driver bookkeeping | algebra, store semantics |
| C71 | as C32, C33 | shared lemmas |
| C72, C73 | real analysis | Coquelicot |
| C74 | model functions over C | trigonometric algebra |
| C75 | orbit counting | C20 plus double counting |
| C76 | `el.k2r` with Wigner–Seitz images | shared lemmas |
| C77 | `complete_k` | fold invariants |
| C78 | `Tc` | monotonicity by derivatives |
| C79 | `Fourier_interpolation` | orthogonality of roots of unity |
| C80, C81 | `ph.q2r`, `elel.q2r` | C40 |
| C82 | `primitives` | Gram matrices, `field`/`nra` |
| C83 | initialization of the driver | algebra |
| C84–C88 | further diagrams | finite-sum algebra, limits |
| C89 | `elph.Model.supercell` on several processes | assignments to disjoint slices, finite-sum algebra |
| C90 | `dispersion_full`, `dispersion_full_nosym` | explicit irreducible wedge (`lia`), invariants of the loops over paths, C20, C50 |
| C91 | `unfolding_weights` | Parseval's theorem for the unitary matrices of eigenvectors, Cauchy–Schwarz inequality, sum of a character of the lattice over the cells of C17, discrete orthogonality |
| C92 | `elph.q2r`, `update_short_range` | inversion of both Fourier transforms, weights of C25 for rectangular sets of pairs, C61, C62; refuted without standardization for a new number of lattice vectors |
| C93 | `elph.sample`, `elph.transform` | round-robin of C08 for communication, rounding to the mesh, matrix elements and Parseval for unitary eigenvectors; refuted: argument of `transform` unchanged |
| C94 | spectral_function with the parallel loop over frequencies and inversion as contract | anti-Hermitian part of the inverse of a damped matrix; eigenbasis; explicit antiderivative of the peaks and its limit |
| C95 | `Driver.superconductivity` (dense), with `double_fermi_surface_average` of C87 | spectral sums do not depend on the eigenbasis; Jensen's inequality; completeness with the inverse of the dynamical matrix; Parseval |
| C96 | `orbital2band` with the parallel loop and 8-bit indices; eigenvectors from `dispersion_full_nosym` are given | C order of nested loops, C02, momenta modulo the mesh; reversal of fourfold sums; refuted for other k meshes and above 256 points |
| C97 | `hartree_energy` | algebra of finite sums |
| C98 | susceptibility2 and phonon_self_energy2 with hybridization, tail correction, memory limit and distribution of q points | partial fractions reduce products of Green's functions to the Matsubara sums of C46; degenerate pairs via a bound on the difference that is uniform in the number of frequencies; the tail is the special case of zero energies |
| C99 | `plot.toBZ` (frame of lattice and reciprocal vectors, extent, pixel centres, sector, distribution) and `bravais.BZ` over the reals | the three inequalities are shown equivalent to the distance criterion for all reciprocal lattice vectors by a quadratic-form inequality over the integers; extents by linearity; sectors by periodicity of the polar angle |
| C100 | `bravais.GMKG` with `linspace`, rounding and the three lines over the reals | pointwise description of the three pieces, then a common lemma about steps; M and K are identified via the first Brillouin zone of C99 |
| C101 | ph.Model.sample_orig, update_short_range, sum_force_constants, D with long-range terms (PhUpdModel.v on top of PhModel.v and PhLRModel.v) | taking the real part in q2r is a projection onto time-reversal symmetric matrices; induction over histories of changes |
| C102 | misc.read_namelists, read_input_data (NmlModel.v), bravais readers and writers of QE inputs (QeModel.v) on lists of characters | the text of a namelist is described as entries of a grammar; protect/split/fill are shown to invert it by induction over the entries; cards by induction over the rows |
| C103 | misc.read_namelists (NmlModel.v), files as lists of namelists with arbitrary separators (FreeSpec.v) | strings: a relation between the text and the text with placeholders, closed under concatenation; items: induction over lexemes with separators; parsing: induction over assignments |
| C104 | WedgeModel.v: D_full from D_irr (rotations, reflection, phases, rounding, indexing of the array), q2r | covariance of lattice Fourier sums under operations that permute cells (bijection of the support), block matrices, then the loops as a list of writes; completeness from C20; C80 for the rest of q2r |
| C105 | regular expression for names of orbitals, matching of components, sets of indices, sums, expansion of groups with misc.split | names are written from their components and shown to be taken apart correctly; indices of a group are a duplicate-free list with exactly the selected orbitals; language of groups by C11 |
| C106 | reading of the list of states by columns, numbering of duplicates with an arbitrary order of iteration over the set of names | lines are written with the format of projwfc.x; invariant of the loop over the set: names treated so far have their final form, all others their initial one |
| C107 | `Driver.electrons` and `Driver.phonons` on top of the driver (MdModel.v), `k2r` (KrModel.v), `standardize` (ElModel.v) and `q2r` (PhModel.v, PhUpdModel.v) in DrvModel.v | unitarity of the eigenvectors gives back the Hamiltonian; C40, C80 for the interpolation; bound for the dropped hoppings; refutations for steps that do not divide the mesh and for long-range terms |
| C108 | `read_bands` and `write_bands` on the characters of the file in FilbModel.v; the content of a file as an inductive relation in FilbSpec.v | induction over blocks and lines; rows of any number of columns; `to_float` of `fmt_f` (Text.v) |
| C109 | the readers and the writer of Coulomb interactions in elel.py on the characters of the file in CoulModel.v; what a line lists as a relation in CoulSpec.v | induction over lines: a line stores an element or leaves the tensor as it is; simulation for density-density terms; position of multi-indices in nested loops |
| C110 | read_quadrupole_fmt, write_quadrupole_fmt, read_q and write_q, character by character (QuadModel.v) | induction over the lines; the specification says which line counts (QuadSpec.v) |
| C111 | compline over the real numbers, with the loops that update the lines in place (CompModel.v) | invariants of the loops; area of polygons by the shoelace formula (CompSpec.v) |
| C112 | plot.arrange and plot.adjust_pixels on images as functions of row and column, with errors of NumPy's concatenation and assignment as values | induction on the list of images; invariant of the loop over blocks: blocks already assigned keep their interpolated values; rounding to nearest keeps the order of points more than one column apart |
| C113 | dos.isoline with the models of to_Voronoi and linear_interpolation; iteration orders of sets are arbitrary permutations, equal on all processes | interpolation is linear on the triangles around interior mesh points; for meshes that are multiples of three these triangles cover the Brillouin zone; invariant of the loop that joins segments |
| C114 | elph.write_xml_files and read_xml_files on texts, with a model of the conversion %.dE (TextE); lattice vectors as rationals that are reciprocal up to 1e-9; np.sqrt, printed warnings and the separation of files left out | the text of a file is decomposed into lines; the rounding error of formatted k points is below half the mesh spacing for up to 10^6 points per direction; induction over the lines; the default and squeezed cases are refuted |
| C115 | elph.coupling on texts with the models of bravais.complete and complete_k | induction over the lines of the files; then C21 and C77 for the completion; elements of bands up to the offset are refuted |
| C116 | `decay`, `decay_epmate`, `decay_epmatp`, `decayH` (DecModel.v) on top of `wigner` and `short_range_model` | selection of positive entries commutes with flattening; specification of Wigner-Seitz lengths (C25); refuted after `order_atoms` |
| C117 | `read_win`, `write_win` (WinModel.v), character by character | invariant on the dictionary read so far, section by section; round trip refuted because of the colon after `mp_grid` |
| C118 | `read_Fermi_level`, `read_pwo`, `read_eps_nk_from_qe_pwo` (PwoModel.v), character by character; the lines of the output in PwoSpec.v | which keywords are found in which lines, then induction over lines, k points and chunks of eight energies |
| C119 | `eband`, `demet_from_qe_pwo` with the data read from the file as arguments (`EbandModel.v`) | assignments to array elements by induction on the list of bands; derivative of a finite sum, with the derivatives of C42 and C44 |
| C120 | `read_energy_contributions_scf_out`, character by character (`TabModel.v`) | splitting at blanks and equals signs equals splitting into tokens; each line by case distinction on its first token; induction on the lines |
| C121 | `read_symmetry_points`, `read_bands_plot` with `np.loadtxt`, `read_wannier90_eig_file`, `read_decayH`, character by character (`TabModel.v`) | induction on the lines; parsing of formatted numbers |
| C122 | plot, rectify, colorbar and color of plot.py with rational numbers; loops over the processes with distribute and Gatherv | pixel by pixel from the interpolant of C23; loops over processes by induction on the bounds |
| C123 | misc.read_cube character by character, real_space_grid and the volume element with rational numbers | files specified by the words in their lines, with arbitrary white space; induction on axes, atoms and values |
| C124 | bravais.readPOSCAR character by character | as C123; induction on elements and atoms |
| C125 | the loop over lines with its counters and nested calls of next, arrays with uninitialized elements | induction over a grammar of the output, invariant that all known elements are right and that no known element gets lost; error cases by reading up to the fault |
| C126 | the loop over lines with the set of remaining q points, rounding to the mesh, folding, early end, scaling, warning | induction over a grammar of the output; an element is set if and only if the k point is in the section of a q point still to come; uniqueness of mesh points |
| C127 | misc.read_xsf and write_xsf character by character | files specified by keywords and the words in their lines; induction on lines and values; the order of the data when written and read again is characterized for all shapes, the round trip refuted |
| C128 | el.read_wsvecdat character by character | files specified by the words in their lines; induction on blocks and vectors; truncated and malformed files |
| C129 | elph.read_patterns character by character, q points not distributed (C01 ff. cover this) | files specified by the tags that occur in their lines; induction on elements, patterns and q points |

## Trusted base

* Coq 8.16.1's kernel (`coqc`), including its virtual machine where `vm_compute`
  is used in examples and refutations.
* The axioms of the standard library listed at the end of this file, by theorem.
  Coquelicot is used for analysis and adds no axioms. No axioms of our own.
* The tie between `/repo` and the model is reading; the code was not run.

### Contracts

What the code calls but does not define enters by contract. A contract is either
a definition in a model file (the documented result) or a hypothesis or section
variable of the theorem, so that it can be seen in the statement.

* *MPI*: collective operations do what the standard says (`Bcast`, `Barrier`,
  `Scatterv`, `Gatherv`, `Allreduce`, `Split`); shared memory is sequentially
  consistent and a barrier of a communicator completes when all its members have
  arrived (C01–C08, C51, C61). Elsewhere, a sum over processes stands for
  `Allreduce` and all processes hold what the first one has read.
* *pickle*: loading inverts dumping (C05, C69); communicators cannot be pickled.
* *File system*: opening for writing truncates; a crash leaves a prefix of what
  has been written (C06, C64, C68).
* *NumPy*: `argsort` returns a permutation that sorts, ties in any order (C22,
  C23); `linalg.inv` returns the inverse (C28, C94); `fft.ifftn` is the documented
  sum (C40, C80, C81); `linalg.eigh` returns an eigenbasis (C66, C70, C72,
  C73, C83, C95); `tofile` and `fromfile` are inverse to each other (C64).
* *math*: `erf` is the integral of the Gaussian (GaussModel.v).
* *Printing*: `%d`, `%f`, `%E`, `%g` and text columns are modelled character by
  character (Text.v, TextE.v, TextG.v). Where `%g`, `%.10g`, `%.12g` and
  `%19.11E` are parameters of the models (C57, C68, C102), we only assume that
  they print a word without blanks that is read back as a number; FmtProps.v
  discharges these assumptions. `%r` of floats remains a contract (C102, C117).
* *Numbers*: floats are exact rational, real or complex numbers, or elements of
  an arbitrary commutative ring with conjugation (Num.v) or ordered field
  (OField.v). **Rounding, overflow and NaN are not modelled**, except for the
  clipping of exponents at 709 in occupations.py.

### What is modelled

| file | modelled | not modelled |
|------|----------|--------------|
| MPI.py | dummy and real communicators by contract, `distribute`, `matrix`, `shm_split`, `shared_array`, `SharedArray.Bcast`, `Buffer` | `load`, `info`, `elphmodenv` |
| misc.py | `StatusBar`, `group`, `differential`, `read_xsf`, `write_xsf`, `read_dat_mat`, `split`, `vector_index`, `minimum`, `read_namelists`, `read_input_data`, `read_cube`, `real_space_grid` | `hello`, `get_sparse_array` |
| bravais.py | `rotate`, `primitives`, `translations`, `reciprocals`, `volume`, `supercell`, `to_supercell`, `images`, `irreducibles`, `symmetries`, `complete`, `complete_k`, `stack`, `linear_interpolation`, `resize`, `squared_distance`, `to_Voronoi`, `wigner_2d`, `wigner`, `read_wigner_file` (text), `short_range_model`, `Fourier_interpolation`, `path`, `point_on_path`, crystal and Cartesian coordinates, `mesh`, `kpoints`, `BZ`, `GMKG`, input files of Quantum ESPRESSO and EPW (`read_pwi`, `write_pwi`, `read_ph`, …) Wannier90 (`read_win`, `write_win`) and VASP (`readPOSCAR`) | |
| el.py | class `Model` (`H`, `v`, `t`, `supercell`, `unit_cell`, `order_orbitals`, `shift_orbitals`, `standardize`, `symmetrize`), `read_hrdat`, `write_hrdat`, `k2r`, `proj_sum`, `read_projwfc_out`, `read_bands`, `write_bands`, `decayH`, `read_Fermi_level`, `read_pwo`, `read_eps_nk_from_qe_pwo`, `eband`, `demet_from_qe_pwo`, `read_energy_contributions_scf_out`, `read_symmetry_points`, `read_bands_plot`, `read_wannier90_eig_file`, `read_decayH`, `read_wsvecdat` | sparse branches, other readers of output files of other codes |
| ph.py | class `Model` (`D`, `C`, `supercell`, `unit_cell`, `order_atoms`, `shift_atoms`, `standardize`, long-range terms, `to_flfrc`, `decay`), `group`, `divide_by_mass`, `read_flfrc`, `write_flfrc`, `asr`, `zasr`, `sum_rule_correction`, `sgnsqrt`, `polarization`, `q2r`, `spectral_function`, `sample_orig`, `update_short_range`, `sum_force_constants`, `read_quadrupole_fmt`, `write_quadrupole_fmt`, `read_q`, `write_q` | XML files, `interpolate_dynamical_matrices`, sparse branches |
| elph.py | class `Model` (`g`, `gR`, constructor, `divide_degeneracy`, `supercell`, `standardize`, `symmetrize`, `asr`, `clear`, `to_epmatwp`, `update_short_range`, `decay_epmate`, `decay_epmatp`), `q2r`, `sample`, `transform`, `read_xml_files`, `write_xml_files`, `coupling`, `read_prtgkk`, `read_L`, `read_EPW_output` (without `defpot`), `read_patterns` | other readers of output files of other codes, quadrupoles |
| elel.py | class `Model`, `q2r`, `to_Wmat`, `orbital2band`, `hartree_energy`, `read_local_Coulomb_tensor`, `read_orbital_Coulomb_interaction`, `read_band_Coulomb_interaction`, `write_band_Coulomb_interaction` | binary files |
| occupations.py | all functions of real arguments | complex arguments |
| dos.py | `hexDOS`, `DOS`, `hexa2F`, `a2F`, `double_delta`, `isoline` | |
| dispersion.py | `dispersion` (collection of results), `sample`, `band_order`, `map_dispersions`, `dispersion_full`, `dispersion_full_nosym`, `unfolding_weights` | drawing |
| diagrams.py | all functions | status messages, most memory limits, fluctuation diagnostics |
| eliashberg.py | `Tc`, `McMillan` | |
| md.py | `Driver` (centre of mass, Fermi level by contract, free energy, forces, force constants, densities, files in XYZ format, `save`, `load`, initialization, `superconductivity` without sparse matrices, `electrons`, `phonons`) | plots, `to_pwi` |
| models | Hamiltonians, dynamical matrices, couplings, interactions | `create` |
| plot.py | `plot`, `colorbar`, `toBZ`, `compline`, `rectify`, `color`, `arrange`, `adjust_pixels` | everything else |

Simplifications are stated in the comments of the model files.

## Findings

Where the natural statement of a property is false of the code, there is a
theorem whose name ends in `_refuted` with a witness. In short:

* C06: `Buffer.set` truncates the file before writing; a kill in between loses
  the old object as well, and `get` raises `EOFError`.
* C08: `dispersion.sample` with more processes than points: processes without
  points return without waiting at the barrier and can see an incomplete array.
* C10: the docstring of `misc.group` (distance within a group) does not hold.
* C11: `misc.split` does not return for literal text `<0>`, raises for `<7>` and
  loses text after a line break.
* C13: `write_xsf` writes data in C order, `read_xsf` reads in Fortran order.
* C15: `misc.minimum` can only be called with command-line arguments, which
  override its own arguments.
* C24: for large shifts `to_Voronoi` may miss the closest point.
* C29: `point_on_path` ignores one coordinate and takes every point to be on a
  line of zero length.
* C31: `primitives` changes the caller's `celldm` at each call.
* C32, C39, C71: `standardize` of a model with vanishing matrices leaves a model
  that cannot be evaluated; `t` and `WR` raise `IndexError`.
* C33, C71: `supercell` keeps only the last of repeated lattice vectors.
* C34: `unit_cell` of a supercell with displaced first cell is displaced.
* C41: wide numbers merge with neighbouring columns of `_hr.dat` files.
* C49: intersections on the boundary of the cell are counted repeatedly.
* C50: `by_mean` does not sort by mean energy.
* C51: with shared memory, the order is not the same on all processes.
* C54: `sum_rule_correction` for lattice vectors that are not closed under
  inversion spoils the last constraint.
* C57: effective charges in files with dynamical matrices are not read.
* C58: `unit_cell` for left-handed supercells; positions shared with the
  supercell.
* C61: `g` at the point of the last call is stale after `asr`, `q2r` or
  `update_short_range`.
* C62: `standardize` raises `ValueError` for models with an unequal number of
  lattice vectors.
* C63: `asr` for couplings divided by masses does not impose the physical rule.
* C64: incomplete degeneracies accepted; `to_epmatwp` after `standardize`;
  masses lost with long-range terms; degeneracies of the second orbital lost.
* C66: `jacobian` is not the gradient of `free_energy` without acoustic sum rule,
  since the latter removes the motion of the centre of mass.
* C67: `free_energy` changes the caller's displacements.
* C68: files cut within the last number are accepted.
* C69: a failing `save` leaves the driver without communicators; sparse drivers
  cannot be saved.
* C71: file vectors that are equivalent modulo the mesh replace each other.
* C72: degenerate terms of `susceptibility` for nonzero momentum are dropped.
* C73: `grand_potential` saturates more than 709 kT below the Fermi level.
* C79: `Fourier_interpolation` reproduces the data up to a threshold only.
* C84: `renormalize_coupling_orbital` for general interactions never returns.
* C89: `elph.Model.supercell` with `sparse=True` adds the long-range part once
  per process; repeated lattice vectors are lost.
* C92: `elph.q2r` does not allocate the array for the Fourier transform again if
  the number of lattice vectors changes: `g` raises `ValueError` until `standardize`
  is called.
* C93: `elph.transform` with `squared=True` and no eigenvectors overwrites the
  array it is given.
* C95: the docstring of `Driver.superconductivity` describes a parameter `tol`
  that the function does not have; unstable modes are always replaced, never
  reported as `None`.
* C96: `orbital2band` stores mesh indices as `np.uint8`, so that meshes with
  more than 256 points per direction are wrapped around (or rejected by NumPy
  2); it only checks the mesh of the interaction, not that of the k points,
  where `q1 * nk // nq` is rounded down silently.
* C98: diagrams.susceptibility2 accounts for the negative Matsubara
  frequencies by a factor of two instead of adding complex conjugates, so that
  the result for real energies has a spurious imaginary part 4 kT/nk^2 sum nu
  (a + b)/((nu^2 + a^2)(nu^2 + b^2)); phonon_self_energy2 takes the real part.
* C99: `bravais.BZ` returns an outline for the square lattice whose corners
  are at b1 + b2 etc., i.e. reciprocal lattice points, twice as far out as the
  corners of the zone. `plot.toBZ` uses only the directions of a1 and a2 for
  the extent at 90 degrees, so that for a rotated square lattice the corners
  of the zone are cut off.
* C100: `bravais.GMKG`: with `straight=False` and `lift_degen=True` the names
  `k` and `K` refer to the same array, which is multiplied by the factor
  twice. With the default `lift_degen=True` the points from M via K to the
  origin are not on the mesh although `mesh=True` promises this; for N = 0 and
  N = 1 the corner indices do not refer to the corners.
* C101: update_short_range subtracts the long-range terms on a mesh from 0 to
  2 pi and q2r takes the real part of the force constants. As the truncated
  sum over G is not exactly periodic in q, the matrices on the mesh change by
  half the difference between equivalent points (C101_preserved_refuted, a
  cubic crystal with alpha = 0.01).
* C102: values that are not read back: lists written with %r such as cdfpt_bnd
  = [1, 2] become the strings '[1' and '2]' (C102_list_refuted); None becomes
  'None', an exclamation mark starts a comment even in a string, backslashes
  are doubled (C102_string_refuted); a string with a placeholder such as
  ___1___ is replaced by itself forever (C102_endless_refuted); any slash in a
  string of a matdyn.x input, e.g. the path of flfrc, lets read_matdyn fail
  with ValueError (C102_matdyn_refuted); entries of celldm, proj and wdata
  that count as false are not written.
* C103: Fortran's repetition 3*0.5 is read as a string, 'it''s' keeps both
  quotation marks, and &ions/ is read as a namelist ion
  (C103_fortran_refuted); x = 'a"b' y = 'c"d' is read as a single parameter x
  (C103_quotes_refuted).
* C104: for angle=90, q2r with irreducible q points from bravais.irreducibles
  leaves elements of np.empty unset (the fourfold rotation is disabled): the
  force constants depend on uninitialized memory (C104_square_refuted). For
  angle=60, irreducible points with k1 + k2 >= nq, e.g., (nq - 1, 1), raise
  IndexError (C104_choice_refuted).
* C105: el.proj_sum ignores everything from the first character on that does
  not fit the pattern. A misspelled name such as Ta-D selects all orbitals of
  Ta, a trailing comma selects all orbitals, and no warning is printed
  (C105_misspelled).
* C106: el.read_projwfc_out numbers duplicates while iterating over a set of
  names. If species names contain digits, a numbered name may equal another
  name: for two atoms Ta and one atom Ta1, the result is Ta11-1s, Ta2-1s,
  Ta12-1s or Ta1-1s, Ta2-1s, Ta1-1s, depending on the hash seed of the Python
  process (C106_digits_refuted).
* C107: `Driver.electrons` takes every dk-th point of the k mesh by slicing.
  If dk does not divide the number of points (e.g. 3 points, dk2 = 2), the
  remaining points (0 and 2/3) are taken for an equidistant mesh (0 and 1/2),
  and the model is wrong even at the points used (`C107_electrons_refuted`).
  `Driver.phonons` stores the full matrix of second derivatives as short-range
  part of a copy of the given model, the long-range terms of which (`lr=True`)
  are then added a second time (`C107_phonons_refuted`); they are not divided
  by masses either, as `prepare_long_range` is not called after `divide_mass`
  has been changed.
* C108: `write_bands` writes a file without k points, which `read_bands`
  cannot   read: `x[0] = 0.0` fails with an IndexError (`C108_empty_refuted`).
* C109: if orbitals are counted from zero, `read_local_Coulomb_tensor` and
  `read_orbital_Coulomb_interaction` overwrite elements of the last orbital
  without an error (index -1), and `dd=True` does not agree with the full
  tensor   (`C109_local_refuted`). Elements without a line are left
  uninitialized.
* C110: write_q separates columns by their width only, so that files for
  meshes of 1000 or more points along an axis, or with second coordinates
  above 99 or below -9, cannot be read correctly by read_q.
  read_quadrupole_fmt accepts the atom and the direction 0 and overwrites the
  last atom and the direction z.
* C112: plot.adjust_pixels raises a ValueError for images with a single row
  and whenever two points fall onto the same column of the new image (the
  block then has a single column, which cannot be resampled without
  periodicity).
* C113: dos.isoline misses the regions near the corners K of the Brillouin
  zone unless the number of mesh points is a multiple of three
  (C113_corner_refuted), and raises a TypeError if the energy equals the two
  lower energies of a triangle (line 352: `extend` instead of `append` and
  `(j)` instead of `tuple(j)`; C113_edge_refuted).
* C114: files written by elph.write_xml_files cannot be read with the defaults
  of elph.read_xml_files (old=False), which expects numbers on the lines of
  the tags (C114_default_refuted). For arrays of four axes, write_xml_files
  inserts the new axes before the axes of k points, which are then taken for
  bands (C114_squeezed_refuted).
* C115: elph.coupling ignores bands above but not below the requested ones:
  for bands up to the offset, indices are negative and address the last bands,
  whose elements are overwritten, or there is an IndexError
  (C115_offset_refuted).
* C116: the bond lengths `l` of a phonon model are set upon creation only
  (ph.py:314, 1962). `supercell` and `unit_cell` return models without `l`,
  for which `decay` raises AttributeError; after `order_atoms`, `shift_atoms`
  or `standardize`, `l` belongs to the old order of atoms or lattice vectors
  (`C116_order_refuted`). With `divide_ndegen=False` (or after
  `sum_rule_correction`, which changes blocks of all lattice vectors), blocks
  that do not belong to a shortest bond are listed with a length of zero
  (`C116_undivided`).
* C117: `write_win` writes `mp_grid: 2 2 1`, but `read_win` compares the first
  word, including the colon, with `mp_grid`. Thus the mesh is skipped, and the
  block of k points, which follows in each file written, raises
  UnboundLocalError (`C117_round_trip_refuted`, for all input data).
  `wannier_plot` is read but never written.
* C118: `read_pwo` never initializes `eF` and knows `highest occupied, lowest
  unoccupied level` only, `read_Fermi_level` knows `highest occupied level`
  only. Thus `read_pwo` raises UnboundLocalError for all insulators without
  empty bands (`C118_insulator_refuted`). `read_eps_nk_from_qe_pwo` expects
  ten words per k point, but there are only nine from the 10000th k point on
  (`C118_many_k_points_refuted`).
* C119: `subset == None` in `eband` and `demet_from_qe_pwo` compares element
  by element if the subset is an array, which the documentation of the latter
  allows. With two or more bands, ValueError is raised (`C119_array_refuted`).
  `subset is None` would be correct.
* C121: `read_wannier90_eig_file` splits lines at blanks, but Quantum ESPRESSO
  prints band and k point with five columns each and nothing in between: with
  10000 k points or more, ValueError is raised (`C121_eig_refuted`).
  `read_bands_plot` raises IndexError for a file with a single line because
  `np.loadtxt` drops dimensions of size one (`C121_one_point_refuted`).
* C122: plot.colorbar with bottom=0 raises IndexError for every image
  (plot.py:197: the range includes the row number image_height); with height
  less than half a pixel, it divides by zero.
* C122: plot.color replaces the anchor points of the colormap that are given
  as strings (data values) for good (plot.py:413), so a second image with
  another range is colored with the anchor points of the first.
* C123: misc.read_cube overwrites the origin with an uninitialized array
  (misc.py:287), so the origin in the file is never returned; files with too
  few values are accepted, the others being uninitialized.
* C123: el.Model divides the volume of the grid by the number of points
  (el.py:266), but real_space_grid has one interval less than points along
  each axis, so dV is too small, which affects the normalization of Wannier
  functions; likewise, real_space_grid applied to the spanning vectors from
  read_cube (n times the step) yields positions that are off by a factor of
  n/(n - 1).
* C124: bravais.readPOSCAR ignores the scale, skips two lines after the
  numbers of atoms, so files without the line 'Selective dynamics' end in
  StopIteration (bravais.py:2549), and keeps only the last block of an element
  that occurs twice.
* C125: elph.read_prtgkk accepts output with fewer q or k points than
  announced (for example from a job that was stopped between two tables) and
  returns arrays whose remaining elements are uninitialized memory
  (C125_incomplete_accepted), while elph.read_EPW_output prints a warning in
  this case.
* C126: elph.read_EPW_output leaves NaN for the second and further appearances
  of a q point in the list of selected points (q_set is a set, q.index finds
  the first), and for q points given outside of the range 0 to nq - 1
  (C126_repeated, C126_couplings).
* C127: on the level of whole files, everything that write_xsf writes is read
  again up to rounding, but the data (also C13) are written with the last
  index as the fastest, while the format and read_xsf have the first index as
  the fastest. The round trip is only correct if at most one dimension exceeds
  one point. The keyword PRIMVEC is not written, and numbers of more than 12
  characters in the data are not separated.

## What `Print Assumptions` lists for each theorem

Written by `tools/assume.py`. Axioms of the standard library that occur:

* (a) `ClassicalDedekindReals.sig_forall_dec`
* (b) `ClassicalDedekindReals.sig_not_dec`
* (c) `Classical_Prop.classic`
* (d) `FunctionalExtensionality.functional_extensionality_dep`

Theorems by the set of axioms they depend on ("none": closed under the global context):

* **none**: C01_distribute_partition, C01_distribute_errors, C02_parallel_equals_serial, C03_matrix_grid, C04_root_of_nodes, C04_bcast_safe, C04_bcast_no_deadlock, C04_bcast_terminates, C04_node_bcast_safe, C04_node_bcast_no_deadlock, C05_buffer_last, C05_buffer_none, C05_buffer_unnamed, C06_crash_refuted, C06_crash_other_partial, C07_round_robin_partition, C07_round_robin_sum, C08_sample_complete, C08_sample_shared_refuted, C08_sample_shared_safe_partial, C09_first_match, C09_none, C10_partition, C10_components, C10_docstring_refuted, C11_expand, C11_plain, C11_literals_refuted, C12_trapezoid, C12_total, C12_affine, C12_too_few, C13_round_trip_refuted, C13_round_trip_partial, C13_values, C14_round_trip, C14_empty, C15_api_refuted, C15_command_line_partial, C16_running, C16_finished, C16_silent, C17_cells, C17_degenerate, C18_decomposition, C18_unique, C19_images, C19_terminates, C19_equivalence, C20_irreducibles, C20_unique, C20_partition, C21_keeps, C21_source, C21_symmetric, C21_irreducible, C21_gap_refuted, C22_stack, C22_empty, C23_reproduces, C23_reproduces_1d, C23_average, C23_average_1d, C23_bounds, C23_affine, C23_affine_1d, C23_continuous, C23_continuous_1d, C23_periodic, C23_period, C23_period_1d, C23_resize, C23_resize_1d, C23_resize_open, C23_angle, C24_nearest, C24_tolerance, C24_class, C24_large_shift_refuted, C25_two_dimensions, C25_two_dimensions_weights, C25_wigner, C25_weights, C26_mesh_exact_generic, C26_undivided, C32_coefficients, C32_hamiltonian, C32_sorted, C32_vectors, C32_threshold, C32_symmetrized, C32_symmetric, C32_symmetric_already, C32_idempotent_partial, C32_idempotent_refuted, C32_zero_model_refuted, C33_hopping, C33_bloch, C33_sparse, C33_repeated_refuted, C34_displaced, C34_round_trip_partial, C34_diagonal, C34_round_trip_refuted, C35_order, C35_back, C35_error, C36_phase, C36_hopping, C36_back, C36_hermitian, C37_hermitian_generic, C39_lookup, C39_coefficient_partial, C39_hamiltonian, C39_empty_refuted, C39_repeated_refuted, C41_roundtrip, C41_read, C41_wide_numbers_refuted, C41_dimensions, C42_names, C49_processes, C49_intersections, C49_result, C49_nonnegative, C49_support, C49_translation_refuted, C50_rows, C50_rows_by_mean, C50_greedy, C50_disentangles, C50_mean_refuted, C50_mean_partial, C50_map_dispersions, C51_energies, C51_order_who, C51_order_refuted, C51_order_private, C52_sum_rule, C52_idempotent, C54_rules, C54_closest, C54_exact, C54_symmetric, C54_unchanged, C54_open_set_refuted, C57_formats, C57_force_constants, C57_dynamical_matrices_partial, C57_dynamical_charges_refuted, C57_lengths, C57_conditions_refuted, C58_supercell, C58_unit_cell_partial, C58_round_trip, C58_left_handed_refuted, C58_order, C58_shift, C58_alias_refuted, C58_standardize, C58_standardize_sorted, C58_symmetrize, C61_history, C61_lookup, C61_other_point, C61_stale_refuted, C62_same_coupling, C62_lattice_vectors, C62_threshold, C62_succeeds_partial, C62_fails_refuted, C68_formats, C68_roundtrip, C68_exact, C68_other_reference, C68_wrong_number, C68_interrupted, C68_interrupted_refuted, C68_foreign_content_refuted, C69_save_load, C69_failing_save_refuted, C69_sparse_driver_refuted, C69_load_needs_complete_file, C71_fourier, C71_lookup, C71_coefficient, C71_standardize, C71_sorted, C71_vectors, C71_threshold, C71_supercell, C71_bloch, C71_repeated_refuted, C71_zero_refuted, C72_processes, C76_mesh, C76_average, C76_missing_key, C77_complete_k, C77_symmetries, C83_not_unscreened, C89_coefficient, C89_bloch, C89_sparse_partial, C89_sparse_long_range_refuted, C89_sparse_processes, C89_repeated_refuted, C90_wedge, C90_paths, C90_mesh, C90_symmetric, C90_equal, C90_disentangles, C90_nosym, C102_formats, C102_ph, C102_q2r, C102_epw, C102_pw, C102_matdyn_partial, C102_matdyn_refuted, C102_again, C102_units, C102_list_refuted, C102_string_refuted, C102_endless_refuted, C103_layout, C103_same, C103_elements, C103_comment, C103_word, C103_fortran_refuted, C103_quotes_refuted, C105_sum, C105_same, C105_partition, C106_names, C106_understood, C106_distinct, C106_digits_refuted, C109_local, C109_local_dd, C109_local_refuted, C109_orbital, C109_orbital_dd, C109_band, C109_band_truncated, C109_band_round_trip, C110_read, C110_malformed, C110_round_trip, C110_numbers_refuted, C110_q_read, C110_q_truncated, C110_q_round_trip, C110_q_refuted, C111_empty, C112_arrange, C112_arrange_errors, C112_adjust, C112_adjust_points, C112_adjust_refuted, C113_total, C113_drawn, C113_maximal, C113_independent, C113_complete_partial, C113_corner_refuted, C113_edge_refuted, C114_round_trip, C114_default_refuted, C114_squeezed_refuted, C115_entries, C115_completed, C115_mesh, C115_offset_refuted, C117_round_trip_refuted, C117_corrected_round_trip, C117_one_character, C118_Fermi_level, C118_energies, C118_insulator_refuted, C118_k_points, C118_agree, C118_many_k_points_refuted, C118_no_smearing_refuted, C120_last, C120_short, C120_pw, C121_symmetry_points, C121_eig, C121_eig_refuted, C121_bands_plot, C121_one_point_refuted, C121_wrong_bands, C121_decay, C122_plot, C122_plot_processes, C122_plot_mesh, C122_plot_periodic, C122_rectify, C122_rectify_crop, C122_colorbar, C122_colorbar_bottom_refuted, C122_color, C122_color_affine, C122_color_again_refuted, C123_cube, C123_header, C123_too_many, C123_too_few_refuted, C123_origin_refuted, C123_grid, C123_grid_single, C123_volume_refuted, C123_cube_grid_refuted, C124_selective, C124_distinct, C124_repeated_refuted, C124_scale_refuted, C124_plain_refuted, C125_prtgkk, C125_incomplete_accepted, C125_truncated, C125_excess, C125_no_q, C125_L, C125_no_L, C125_L_only, C126_couplings, C126_complex, C126_complete, C126_repeated, C127_read_xsf, C127_header, C127_no_atoms, C127_too_few, C127_too_many, C127_write_read_partial, C127_lines, C127_round_trip_refuted, C128_read_wsvecdat, C128_all, C128_truncated, C128_malformed, C128_missing, C129_read_patterns, C129_missing, C129_too_few, C129_no_number

* **a**: C96_mismatch

* **a, d**: C28_reciprocals3, C28_unique, C28_involutive, C28_volume, C28_coordinates, C28_singular, C29_close, C29_sound, C29_complete_partial, C29_out_of_plane_refuted, C29_degenerate_refuted, C42_heaviside, C43_heaviside, C44_heaviside, C45_result, C45_result_simple, C45_fixed, C45_guess, C47_dos_processes_window, C47_dos_sign, C47_dos_infinite, C48_a2F_processes_window, C48_a2F_constant, C48_a2F_linear, C48_a2F_bounds, C53_neutral, C53_shift, C53_idempotent, C64_standardized_refuted, C65_centred, C65_relative, C65_unique, C65_idempotent, C67_argument, C67_unchanged_iff, C67_own, C70_density, C70_per_atom, C70_per_atom_sum, C73_first_order_basis, C83_forces, C83_force_constants, C84_density_density, C84_special_case, C84_no_interaction, C84_general_refuted, C84_general_band, C96_orbital2band_partial, C96_dd, C96_hermitian, C96_gauge, C111_stacked, C111_area, C119_subset, C119_all, C119_additive, C119_out_of_range

* **a, b, d**: C21_cartesian, C26_mesh_exact, C27_segments, C27_corners, C27_abscissa, C27_single_refuted, C28_reciprocals2, C30_mesh, C30_unique, C30_kpoints, C31_unchanged_partial, C31_changed_refuted, C31_twice_refuted, C36_phase_factors, C37_periodic, C37_hermitian, C38_gradient, C38_hermitian, C40_reproduces, C40_dimensions, C42_methfessel_paxton_limit, C46_poles, C46_symmetric, C52_translation, C55_acoustic, C55_time_reversal, C55_hermitian, C55_hermitian_same, C56_norm, C56_longitudinal, C56_transverse, C59_divide, C59_multiply, C59_back, C59_symmetric, C59_sgnsqrt, C60_mesh, C60_back, C61_asr_refuted, C62_symmetrized, C63_sum_rule, C63_gamma, C63_least_change, C63_masses_refuted, C64_roundtrip, C64_roundtrip_divided, C64_contents, C64_interrupted, C64_interrupted_refuted, C64_long_range_refuted, C64_first_row_refuted, C66_sparse, C71_mesh_partial, C71_mesh_refuted, C72_dynamic, C72_dynamic_symmetry, C72_matsubara, C72_polarization, C72_polarization_opposite, C72_polarization_compressibility, C72_polarization_excluded, C72_self_energy, C72_self_energy_opposite, C72_self_energy_contact, C72_susceptibility, C74_hamiltonians, C74_dynamical_matrices, C74_coulomb_interaction, C74_acoustic_sum_rule, C74_coupling_zero, C74_coupling_hermitian, C74_periodic, C79_mesh, C79_periodic, C79_exact_refuted, C80_reproduces, C81_reproduces, C82_traditional, C82_celldm, C82_centered, C86_direct, C86_optical, C86_even, C86_frequencies, C87_average, C87_denominator, C88_triangle, C88_gauge, C91_weights, C91_gauge, C91_bloch, C91_supercell, C91_complete, C91_mesh, C91_blocks, C92_reproduces, C92_again, C92_workflow, C92_update, C92_resized_refuted, C92_standardized, C92_undivided, C93_sample, C93_unique, C93_nearest, C93_processes, C93_squared, C93_total, C93_gauge, C93_transform, C93_unchanged, C93_unchanged_refuted, C94_nonnegative, C94_modes, C96_mesh_refuted, C96_large_refuted, C97_formula, C97_positive, C97_translation, C97_units, C97_quadratic, C99_sector, C99_box_partial, C99_box_refuted, C99_outline_partial, C99_outline_refuted, C100_corners_partial, C100_corners_refuted, C100_negative, C100_distance, C100_straight, C100_mesh, C100_shift, C100_mesh_refuted, C100_special, C101_preserved_partial, C101_periodic, C101_gamma, C101_history, C101_order, C101_acoustic, C101_cost, C104_value, C104_images, C104_complete, C104_model, C104_square_refuted, C104_choice_refuted, C107_electrons_partial, C107_electrons_refuted, C107_phonons_partial, C108_read, C108_path, C108_round_trip, C108_exact, C108_truncated, C108_empty_refuted, C116_undivided, C116_order_refuted, C116_coupling_electron, C116_coupling_phonon, C116_hopping

* **a, b, c, d**: C42_fermi_dirac, C42_fermi_dirac_clipped, C42_gauss, C42_marzari_vanderbilt, C42_methfessel_paxton, C42_double_fermi_dirac, C42_two_fermi_dirac, C42_lorentz, C43_fermi_dirac, C43_gauss, C43_lorentz, C43_double_fermi_dirac, C43_two_fermi_dirac, C43_methfessel_paxton, C43_marzari_vanderbilt, C43_bose_einstein, C44_fermi_dirac, C44_gauss, C44_marzari_vanderbilt, C44_methfessel_paxton, C44_double_fermi_dirac, C44_two_fermi_dirac, C45_terminates, C45_terminates_steps, C46_derivatives, C46_converges, C47_dos_integral, C47_dos_derivative, C48_a2F_integral, C66_gradient, C66_gradient_centred, C66_components, C66_hessian, C66_smearings, C66_components_refuted, C67_unchanged_refuted, C72_quotient, C72_susceptibility_refuted, C73_grand_potential, C73_grand_potential_refuted, C73_derivative, C75_averages, C78_positive, C78_linear, C78_mustar, C78_lamda, C78_clamped_refuted, C85_causality, C88_weight, C94_normalized, C95_formula, C95_averages, C95_nonnegative, C95_masses, C95_hopfield, C95_unstable, C98_converges, C98_bounds, C98_below, C98_opposite, C98_holes, C98_real_refuted, C98_susceptibility, C98_self_energy, C98_unit, C98_memory, C99_image, C99_parallel, C99_angle, C101_preserved_refuted, C107_phonons_refuted, C116_force_constants, C119_array_refuted, C119_Hellmann_Feynman, C119_negative
