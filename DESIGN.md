# Formal model of pscfpp in Rocq/Coq 8.16.1

The source is `/repo` (dmorse/pscfpp at the pinned commit; C++, read as text only,
never built or run).  The model and its proofs are in `rocq/theories`.
`properties.jsonl` lists the properties, `MANIFEST.json` maps each of them to
theorems, `seeded/LOG.jsonl` records the seeded-bug trials.  This file is put
together by `tools/design.py` from `tools/design_head.md`, the manifest and the
output of `Print Assumptions`.

## Layout

Each area has up to four files:

* `<Area>.v`: the model, function by function; every definition cites the file
  and lines of `/repo` it models and says what was simplified;
* `<Area>Spec.v`: independent specification, where it is not short enough to stand
  in the file of the theorems;
* `<Area>Proofs.v`: lemmas;
* `Props<Area>.v`: the final theorems, concrete cases that meet their hypotheses
  (`Example`), and `Print Assumptions`.

## Conventions

* Integer code (`int`, `IntVec`) is modelled with `Z` (or `nat` where the value
  is an array index), without overflow.  C++ division and remainder truncate,
  so `Z.quot`/`Z.rem` are used where the operands can be negative.
* Floating point: numerical kernels are modelled over the reals `R` of the
  standard library, in exact arithmetic.  Where a property depends on non-finite
  values, numbers are `option R` (`None` is not finite) or IEEE doubles
  (`SpecFloat`, which computes and needs no axiom).
* `UTIL_CHECK`/`UTIL_THROW` give the outcome `Throw`; `UTIL_ASSERT` is inactive in
  production builds and not modelled.  Undefined behaviour (out-of-range access,
  null dereference, unset memory) is the distinct outcome `UB`.  Loops whose
  termination is in question carry fuel; running out of it is the distinct outcome
  `NoFuel`, and theorems about them say for which fuel it does not occur.
* `src/util` and `src/test` are git submodules that are absent from the pinned
  tree; containers are modelled by lists or functions with the behaviour their
  uses rely on (`DArray::allocate` raises an error when already allocated).
* If the property as stated is false of the code, a theorem with suffix
  `_refuted` exhibits a concrete input, and the part that holds is proved under
  the explicit condition under which it holds (`_partial`, or a guard).  The
  manifest status is then `partial`.

## Trusted base

1. The kernel of Coq 8.16.1 (and `coqchk`, which the gate runs).
2. The axioms that `Print Assumptions` lists.  There are four, all from the
   standard library, and no axiom of this development:
   * `ClassicalDedekindReals.sig_forall_dec` and
     `ClassicalDedekindReals.sig_not_dec` (construction of the reals),
   * `FunctionalExtensionality.functional_extensionality_dep`,
   * `Classical_Prop.classic` (through Coquelicot and parts of the library of
     the reals).

   The last section lists, for each theorem of the manifest, which of them it uses.
3. That the definitions in the model files say what the cited lines of `/repo` do.
   This is a matter of reading; the simplifications are stated with the definitions.
4. Libraries called by the code are given by their specification, as hypotheses of
   the theorems or parameters of the model, never as axioms: FFTW (its transforms
   are defined by their sums, `Fft.v`), the LU solver and the symmetric eigensolver
   of GSL, `std::sort`, random-number generators, the formatting of numbers in
   files.

## What is modelled

| code | model |
|------|-------|
| `pscf/mesh` Mesh, MeshIterator, MeshIteratorFortran | `Mesh.v` |
| `pscf/chem` PolymerSpecies (graph, plan, paths), Vertex, VertexIterator | `Polymer.v` |
| `pscf/chem` Species, SolventSpecies; `rpc` Solvent | `Species.v` |
| `pscf/chem` PolymerModel | `PolymerModel.v` |
| `pscf/chem` Debye | `Debye.v` |
| `pscf/solvers` PropagatorTmpl, PolymerTmpl | `Solve.v` |
| `pscf/math` TridiagonalSolver | `Tridiag.v` |
| `pscf/math` FieldComparison, `prdc/cpu` CFieldComparison | `Compare.v` |
| `pscf/inter` Interaction, `pscf/iterator` AmbdInteraction, residuals of all SCFT iterators | `Interaction.v` |
| `pscf/iterator` AmIteratorTmpl, AmIteratorDArray | `Am.v` |
| `pscf/sweep` SweepTmpl; `rpc/scft/sweep` extrapolation | `Sweep.v` |
| `pscf/floryHuggins` Mixture, Molecule | `FloryHuggins.v` |
| `pscf/environment`, `prdc/environment` base classes | `Environment.v` |
| `prdc/environment`, `rpc/environment` film generators | `Film.v`, `FilmStress.v` |
| `prdc/crystal` UnitCell, replicateUnitCell, paramIdConversions | `UnitCell.v` |
| `prdc/crystal` SpaceSymmetry, SymmetryGroup, SpaceGroup | `Symmetry.v` |
| `prdc/crystal` shiftToMinimum | `ShiftMin.v` |
| `prdc/crystal` Basis (construction, validity, use) | `Basis.v`, `MakeBasis.v` |
| `prdc/crystal` hasImplicitInverse; `prdc/cpu` FFT, WaveList (dKSq) | `Fft.v`, `Stress.v` |
| `prdc/cpu` WaveList (caching; real fields), `prdc/crystal` hasVariableAngle | `WaveList.v` |
| `pscf/cuda` ThreadArray; `prdc/cuda` Reduce (kernels and wrappers, thread by thread) | `GpuThreads.v`, `GpuReduce.v` |
| `pscf/cuda` ThreadMesh; thread-to-point map of the `rpg` film kernels | `GpuMesh.v` |
| `prdc/cuda` WaveList (real fields; kernels thread by thread, caching) | `GpuGrid.v`, `GpuWave.v` |
| `prdc/cuda` VecOp, VecOpMisc, kernels of `rpg/solvers` Block (statement by statement, on words of memory) | `GpuKernel.v`, `VecOp.v` |
| `rpg/solvers` Block, Propagator, Polymer; `prdc/cuda` FFT, FFTBatched (wrappers; cuFFT by its definition) | `GpuBlock.v`, `GpuPolymer.v` |
| `pscf/cuda/DeviceArray.h`, `HostDArray.h` (transfers), `prdc/cuda/RField.tpp`, arrays of `rpg` Propagator | `DevArray.v` |
| `pscf/chem/EdgeIterator.cpp`, `rpc/fts/compressor/IntraCorrelation.tpp` (and the same code in `rpg`) | `Intra.v` |
| `rpc/fts/analyzer/` ChiDerivative, ConcentrationDerivative, PerturbationDerivative, HamiltonianAnalyzer (and the same code in `rpg`) | `Deriv.v` |
| `rpc/fts/analyzer/` FourthOrderParameter, MaxOrderParameter, BinaryStructureFactorGrid (and the same code in `rpg`) | `OrderParam.v` |
| `prdc/cpu/` complex.h, VecOp.cpp, Reduce.cpp | `HostOps.v` |
| `rpc/scft/sweep/` LinearSweep, SweepParameter (values), `rpc/fts/ramp/` LinearRamp, RampParameter (values), `prdc/solvers/MixtureModifierPrdc.tpp` | `LinearPath.v` |
| `prdc/solvers/MixturePrdc.tpp` compute, `rpc/fts/compressor/LrCompressor.tpp` correction of the fields | `Response.v` |
| `prdc/cpu` FieldBasisConverter | `BasisConv.v` |
| `prdc/field` fieldIoUtil, unitCellHeader, FieldIoTmpl (headers); `rpc/field` FieldIo | `FieldIo.v`, `Basis.v` |
| `prdc/field` WFieldsTmpl, MaskTmpl | `FieldStore.v` |
| `prdc/system` ScftThermoTmpl | `Thermo.v` |
| `prdc/system` SystemTmpl: operations on fields, cell, c fields, stress | `System.v` |
| command loops of the `rpc` and `r1d` systems | `Commands.v` |
| `rpc/solvers` Block, Propagator, Polymer; `prdc/solvers` MixturePrdc (stress) | `Rpc.v`, `Stress.v` |
| `r1d` Domain, Block, Propagator, Polymer | `R1d.v` |
| `r1d/misc` FieldIo: read, write, remesh, extend | `R1dFieldIo.v` |
| `r1d` System::computeFreeEnergy, `r1d/misc` HomogeneousComparison | `R1dThermo.v` |
| `rpc/fts/analyzer` TrajectoryWriter, `rpc/fts/trajectory` RGridTrajectoryReader (frames) | `Trajectory.v` |
| `r1d/iterator` NrIterator | `NrIterator.v` |
| `r1d/iterator` BinaryRelaxIterator | `BinaryRelax.v` |
| `rpc/fts` Simulator, McMove and subclasses, BdStep and subclasses, compressor updates, EinsteinCrystal | `Fts.v` |
| `rpc/fts/ramp`, `rpc/scft/sweep`, `r1d/sweep` parameter I/O | `ParamIo.v` |
| `rpc/fts/analyzer` Analyzer, AnalyzerManager, simulation loops | `Analyzers.v` |

Not modelled: CUDA code (`rpg`, `prdc/cuda`, `pscf/cuda`) other than that listed, complex Langevin code
(`cpc`), the FFTW and GSL libraries, rounding errors of floating point, integer
overflow, memory layout of field slices, timers, log output, the text of most
parameter files (ParamComposite), the individual analyzers' output, `src/tools`.

## Disagreements between properties and code

The following claims of the properties are false of the modelled code.  Each is
the subject of a theorem with suffix `_refuted` (or an exact characterisation).

* Mesh (C05): `serialize` archives `dimensions_[0]` D times, and loading restores
  neither offsets nor size.
* Polymer graphs (C08): a cyclic graph makes `makePlan` run for ever; ids out of
  range are out-of-bounds accesses.
* r1d field files (C83) that end within their last row are accepted, old values stay; `remesh` to one point writes two rows, `extend` by a negative number more rows than its header says.
* r1d `HomogeneousComparison` (C84) with solvents reads volume fractions and chemical potentials that were never set, and its output reads polymers past the last one.
* NrIterator (C85) takes the largest residual with a comparison that is false for NaN, so that concentrations that are not numbers are reported as converged; and it regards a system as canonical if all polymers are closed, although solvents may be open, and then does not constrain the last grid point.
* RGridTrajectoryReader (C86) does not compare the mesh dimensions of a frame with those of the system, and cannot read a value that is not finite.
* r1d blocks (C14) shorter than half a step get `ns = 1` and divide by zero.
* Species (C15): `phi` is read without a range check.
* Symmetry group (C17): `add` of a symmetry that was not normalised inserts a
  duplicate.  Space group (C18): the mesh check skips the first axis; C69 has to assume
  what the check should have established.
* Basis (C69): `makeStars` reduces a difference of phases (in radians) modulo 1 instead
  of modulo 2 pi, and compares `wave.sqNorm` with itself.  Neither changes the result for
  a group: the test on the root wave already finds every cancelled star.
* Unit cell (C20): the derivatives for the oblique lattice are in the wrong place;
  those with respect to the monoclinic and rhombohedral angle have the wrong sign.
  C22: angle ids of triclinic cells.  C58: `serialize` leaves old basis vectors.
* `shiftToMinimum` (C23): rounding tolerance accumulates over candidates, and the
  result is not a fixed point for vectors far outside the first cell.
* WaveList (C68): on strongly anisotropic meshes of hexagonal cells the window of +-2
  shifts misses the shortest image, and inverse waves get different `|k|^2`.
* `hasImplicitInverse` (C24) misses the waves with last index `n - n/2 - 1`; the
  stress (C66, C70) therefore counts these waves once instead of twice.
* Interaction (C36): a zero chi matrix is not detected as singular.
* Anderson mixing (C38): stale coefficients in the first step of a continuation;
  C39: an exception escapes `solve` in double precision.
* Sweep: C40 ten million steps overshoot; C41 `ns <= 0` accepted, may not end;
  C43 a partly flexible cell is not transferred.
* Field-theoretic simulation: C46 `cc_` stale after a rejected force-bias move; C49
  stale Hamiltonian with a ramp; C50 `v_monomer` and r1d `cell_param` cannot be read
  back; C51 simulation without analyzers, and analysis with a base interval, throw.
* Field containers and system: C29 symmetric data refused after asymmetric data, and
  inconsistent data after an exception; C30 `clear` and throwing setters do not
  invalidate the concentrations; C31 parameter changes invalidate nothing; C32
  stale, mixed or unset stress.
* Commands (C33): a last command without arguments and without trailing white space
  is lost.
* BinaryRelaxIterator (C53) never recovers from a step that increases the error.
* Order parameters (C80): where two minimum images of a wavevector are equally short, the inverse of a minimum image need not be a minimum image, so `FourthOrderParameter` counts both members of such a pair fully (`C80_fourth_refuted`, 3 x 2 points); the result is never too small and at most a factor 2 too large before the root (`C80_fourth_bounds`). `MaxOrderParameter` reads `psi[1]` of a grid of one point. `BinaryStructureFactorGrid` averages over the half grid without the multiplicity of its points (`C80_shell_refuted`), averages means within the tolerance without weights (`C80_tolerance_refuted`), and throws in the second simulation (`C80_second_setup_refuted`).
* Host arithmetic (C81): `mul`, `square` and `div` of two `fftw_complex` overwrite the real part before it is used for the imaginary part, so they are wrong in place (`C81_complex_alias_refuted`); the other functions may be used in place. `VecOp` functions may be used in place, not with overlapping arrays (`C81_overlap_refuted`). `Reduce::max`, `min`, `maxAbs`, `minAbs` return NaN only if the first element is NaN and skip any other NaN (`C81_reduce_nan_refuted`).
* Linear sweeps and ramps (C82): a sweep adds its steps in double precision and stops only beyond 1.0000001, so its last path variable may exceed 1 (for example with 20 steps); a sweep that takes a volume fraction to 0 or 1 then throws at its last step although the end of the line is valid (`C82_end_refuted`, on IEEE doubles). The check that the changes of volume fractions add up to zero accepts a list that names one volume fraction twice; only the last entry takes effect, and the sum changes (`C82_twice_refuted`); the same holds for chi(i,j) and chi(j,i) (`C82_chi_refuted`). Negative indices are not refused (`C82_negative_refuted`).
* ChiDerivative (C79): the formula divides by chi(0,1) and so assumes that chi has no diagonal elements, although the parameter file may give them (`C79_chi_diagonal_refuted`); with a perturbation it is the derivative of the unperturbed Hamiltonian (`C79_chi_perturbed_refuted`).
* Debye (C54): small-argument branches are of first order only, one is discontinuous. The correlation function of C77 inherits this error (at most 2e-5 of its k = 0 value, `C77_bound`, `C77_exact_refuted`).
* Field comparison (C55): fields of different sizes; component 0 of a basis ignored.
* Homogeneous mixtures (C56): valid compositions refused in doubles; NaN for absent
  species.
* Field files: C27 nonpositive new dimensions accepted; C28 mismatched pairs of stars
  accepted (`=` instead of `==`); C59 asymmetric fields pass the symmetry test.
* Environments: C44 external-first order always throws; C45 obtuse angles accepted,
  `normalVecId = D` accepted; C60 sweeping wall parameters has no effect; C63 mask
  stress uses `T/L^2` for the change of the mean of the mask; C64 triclinic films.
* GPU reductions (C71): the number of blocks is computed from `(float)n`, so that with
  more than 2^24 elements the last ones can be dropped; `minAbs` reads outside arrays
  shorter than half a block; the unrolled last warp needs lockstep execution, which
  devices of compute capability 7.0 (the default NVARCH) do not provide; a NaN is lost
  in `maxAbs`, which defeats the test for NaN in the `rpg` iterator.
* ThreadMesh (C72): a stored configuration is reused for a mesh of lower dimension with
  the same first dimension, after an exception that left BLOCK_DIMS unset (the launch is
  then empty), and after `setThreadsPerBlock` changed the default; `setThreadsPerBlock`
  accepts more threads than the device supports, and the failed launch is not noticed.
* GPU WaveList (C73): its window of shifts has 32 or 128 members, the CPU's 25 or 125, so
  that the two can choose images of different length on elongated hexagonal meshes; the
  2D reduction needs lockstep execution; `kSize*128` overflows from 2^24 waves on;
  `minImages_h` uses an array that is never allocated and strides by D instead of kSize;
  a refused launch leaves junk marked as available.
* Element-wise operations (C74): a negative first index of a slice is not refused;
  `addVMany` and `mulVMany` of more than two vectors do not look at the capacity of the
  output or of the other vectors; complex `mulVV`, `mulVS`, `expV` cannot be used in
  place, which is not documented; the wrappers in `rpg` Block.tpp do not check whether
  the launch was refused.
* Polymer solver on the GPU (C75), bead model: where the CPU copies the last bead to the
  slice of a tail that ends the chain, `Propagator::solve()` copies a slice onto itself, so
  that slice stays uninitialised, and the batched transforms of `computeStress` read it;
  in `solve(head)` the condition is inverted, so the slice of a tail that does not end the
  chain, which `tail()` returns, is not computed.
* Device arrays (C76): the copy constructor calls `allocate()` before `dataPtr_` and
  `ownerPtr_` have values; if an owner is deallocated the destructor of a slice throws, which
  ends the program; if an owner is destroyed first its slices hold a dangling pointer;
  assignment between overlapping slices and `copySlice` with a negative index are not
  refused; `RField::allocate` stores the new dimensions before it throws.

## Properties

For each property: status, files with the theorems, and what is proved or missing.

**C01 Grid rank and grid position are inverse bijections** (proved). Any dimension D, any positive dimensions; int has no overflow.
Code: `src/pscf/mesh/Mesh.tpp: Mesh<D>::setDimensions, rank, position`, `src/pscf/mesh/Mesh.h`. Theorems in `PropsMesh.v`: `mesh_constructible`, `mesh_rank_position_bijection`, `mesh_rank_lexicographic`.

**C02 A mesh iterator visits every grid point exactly once, in rank order** (proved). Exact number of iterations and exact sequence of (rank, position).
Code: `src/pscf/mesh/MeshIterator.tpp: begin, operator++, increment`, `src/pscf/mesh/MeshIterator.h: atEnd`. Theorems in `PropsMesh.v`: `mesh_iterator_visits_all_in_order`.

**C03 The Fortran-order iterator visits every grid point exactly once, first index fastest, with the right C-order rank** (proved). Sequence of positions, agreement of rank with Mesh::rank, coverage.
Code: `src/pscf/mesh/MeshIteratorFortran.tpp: setDimensions, begin, operator++`, `src/pscf/mesh/MeshIteratorFortran.h`. Theorems in `PropsMesh.v`: `mesh_iterator_fortran_visits_all`.

**C04 Shifting a coordinate wraps it into the primary cell and reports the exact shift** (proved). All integers; truncating division modelled with Z.quot.
Code: `src/pscf/mesh/Mesh.tpp: shift`, `src/pscf/mesh/Mesh.h: isInMesh`. Theorems in `PropsMesh.v`: `mesh_shift_coordinate`, `mesh_shift_position`, `mesh_isInMesh_iff_no_shift`.

**C05 Serializing a mesh and loading it back reproduces the mesh** (partial). The property is false of the code (Mesh.h 237-242 archives dimensions_[0] D times and never restores offsets and size).
Code: `src/pscf/mesh/Mesh.h: Mesh<D>::serialize`. Theorems in `PropsMesh.v`: `mesh_serialize_roundtrip_refuted`, `mesh_serialize_never_restores`.

**C06 The propagator plan of an acyclic polymer is a valid dependency order** (proved). All trees, all numberings and orientations.
Code: `src/pscf/chem/PolymerSpecies.cpp: makePlan, readParameters`, `src/pscf/chem/Vertex.cpp: addEdge`. Theorems in `PropsPolymer.v`: `polymer_plan_is_valid_order`, `polymer_read_fuel_independent`, `linear_polymer_is_tree`.

**C07 The stored signposts route every vertex to every other vertex** (proved). Total correctness of makePaths and VertexIterator on all trees.
Code: `src/pscf/chem/PolymerSpecies.cpp: makePaths`, `src/pscf/chem/VertexIterator.cpp`, `src/pscf/chem/EdgeIterator.cpp`. Theorems in `PropsPolymer.v`: `polymer_signposts_route_everywhere`.

**C08 An invalid branched architecture is rejected** (partial). Rejection is false of the code: cyclic graphs hang in makePlan, out-of-range ids are out-of-bounds accesses. Proved: nothing invalid is ever accepted; self-loops are rejected; every other well-formed non-tree hangs.
Code: `src/pscf/chem/PolymerSpecies.cpp: readParameters, makePlan, makePaths, isValid`. Theorems in `PropsPolymer.v`: `polymer_accepted_is_tree`, `polymer_invalid_graph_hangs`, `polymer_invalid_graph_rejected_refuted`, `polymer_self_loop_rejected`.

**C09 Each block's average concentration is its exact share of the species volume fraction (continuous chain, periodic solver)** (proved). All dimensions, meshes, kSq arrays, architectures and fields, with FFTW given by its mathematical definition; Q nonzero. With a mask the average is multiplied by the occupied fraction.
Code: `src/rpc/solvers/Block.tpp: stepThread, computeConcentrationThread`, `src/rpc/solvers/Propagator.tpp: computeHead, solve, computeQ`, `src/rpc/solvers/Polymer.tpp: compute`, `src/pscf/solvers/PolymerTmpl.tpp: solve`. Theorems in `PropsRpc.v`: `rpc_thread_block_mass`, `rpc_block_mass_conserved`, `fft_roundtrip`.

**C10 The molecular partition function does not depend on which propagator is used to evaluate it** (proved). Both polymer models; also every interior contour point or bead.
Code: `src/rpc/solvers/Propagator.tpp: computeQ`, `src/pscf/solvers/PolymerTmpl.tpp: solve`. Theorems in `PropsR1d.v`, `PropsRpc.v`: `rpc_Q_independent_of_propagator`, `r1d_Q_independent_of_propagator`.

**C11 Bead model: each block holds exactly its share of beads** (proved). All architectures with at least one bead per block (the reader does not test nBead > 0).
Code: `src/rpc/solvers/Block.tpp: stepBondBead, stepHalfBondBead, stepFieldBead, computeConcentrationBead`, `src/rpc/solvers/Propagator.tpp: solve, computeQ`. Theorems in `PropsRpc.v`: `rpc_bead_block_mass`, `rpc_block_mass_conserved`.

**C12 One-dimensional solver conserves monomers exactly in planar, cylindrical and spherical coordinates** (proved). All geometries, architectures, fields; blocks at least half a target step long (shorter ones have no valid step, see C14), nonzero pivots (implied by ds*w > -2), Q nonzero.
Code: `src/r1d/solvers/Block.cpp: setupSolver, step, computeConcentration`, `src/r1d/domain/Domain.cpp: spatialAverage, innerProduct`, `src/r1d/solvers/Polymer.cpp: compute`. Theorems in `PropsR1d.v`: `r1d_block_mass_conserved`, `r1d_pivots_sufficient`, `r1d_domain_setters_valid`, `r1d_spatialAverage_is_average`, `r1d_Q_independent_of_propagator`.

**C13 The tridiagonal solver solves the system it was given** (proved). Any size, any entries with nonzero pivots; diagonal dominance implies nonzero pivots.
Code: `src/pscf/math/TridiagonalSolver.cpp: computeLU, solve, multiply`. Theorems in `PropsTridiag.v`: `tridiagonal_solve_correct`, `tridiagonal_multiply_correct`, `tridiagonal_solve_multiply_inverse`, `tridiagonal_symmetric_overload`, `tridiagonal_dominant_pivots`.

**C14 Contour discretization is well formed for every block length** (partial). Holds for every periodic block; false for r1d blocks shorter than half the target step (ns = 1, division by zero).
Code: `src/rpc/solvers/Block.tpp: allocate, setLength`, `src/r1d/solvers/Block.cpp: setDiscretization, setLength`. Theorems in `PropsR1d.v`, `PropsRpc.v`: `rpc_discretization`, `r1d_discretization_partial`, `r1d_discretization_refuted`, `r1d_discretization_short_blocks`.

**C15 Species ensembles keep phi, mu and q consistent** (partial). Everything is proved except that a closed species stays in [0,1]: readParameters does not test the range of phi (refuted); it holds whenever the initial phi is in range.
Code: `src/pscf/chem/Species.cpp: setPhi, setMu, setQ`, `src/rpc/solvers/Solvent.tpp: compute`. Theorems in `PropsR1d.v`, `PropsSpecies.v`: `species_calls_keep_ensemble_and_range`, `species_setQ_consistent`, `species_setters`, `species_read_phi_in_range_refuted`, `rpc_solvent_mean_concentration`, `r1d_solvent_mean_concentration`.

**C16 Space symmetries compose and invert as affine maps of the torus** (proved). Every dimension for products, D=1,2,3 for inverses (the specializations that exist).
Code: `src/prdc/crystal/SpaceSymmetry.tpp`, `src/prdc/crystal/SpaceSymmetry.cpp: inverseRotation, determinant`, `src/prdc/crystal/SpaceSymmetry.h: operator*`. Theorems in `PropsSymmetry.v`: `symm_product_is_composition`, `symm_respects_lattice`, `symm_wave_action_composes`, `symm_inverse_correct`, `symm_inverse_rejects`, `symm_translations_normalized`, `symm_normalize_correct`, `symm_shiftOrigin_conjugates`, `symm_group_laws`, `symm_equal_iff_same_action`.

**C17 makeCompleteGroup returns the group generated by the input symmetries** (partial). Completion returns exactly the generated group and terminates on finite groups, for normalized starting elements. add() of a symmetry read from file without normalization can insert a duplicate (refuted).
Code: `src/prdc/crystal/SymmetryGroup.tpp: add, makeCompleteGroup, isValid`. Theorems in `PropsSymmetry.v`: `space_group_completion`, `space_group_completion_terminates`, `space_group_isValid_iff`, `space_group_add_unique`, `space_group_add_unique_refuted`, `inversion_center_correct`, `shiftOrigin_homomorphism`.

**C18 The mesh check of a space group accepts only meshes that the group maps to themselves** (partial). The divisibility loop starts at axis 1, so the first axis is never checked: refuted with a valid group; soundness proved for the other axes and, under the missing divisibility, for the first.
Code: `src/prdc/crystal/SpaceGroup.tpp: checkMeshDimensions`. Theorems in `PropsSymmetry.v`: `mesh_check_sound_partial`, `mesh_check_sound_refuted`.

**C19 Bravais and reciprocal basis vectors are dual in every lattice system** (proved). All 13 lattice systems, all parameters with nonzero volume (rhombohedral: angle in the range where the vectors exist).
Code: `src/prdc/crystal/UnitCell1.cpp`, `src/prdc/crystal/UnitCell2.cpp: setBasis`, `src/prdc/crystal/UnitCell3.cpp: setBasis`, `src/prdc/crystal/UnitCellBase.tpp`. Theorems in `PropsUnitCell.v`: `unit_cell_bases_dual`, `unit_cell_volume_formula`.

**C20 The stored derivatives of the lattice vectors are the true derivatives** (partial). drBasis is the exact derivative for every parameter except the oblique second length and angle (written to the wrong vector), the monoclinic angle and the rhombohedral angle (wrong sign), all refuted; dksq is the exact derivative of ksq wherever drBasis is, for the others its value is given exactly.
Code: `src/prdc/crystal/UnitCell1.cpp`, `src/prdc/crystal/UnitCell2.cpp: setBasis`, `src/prdc/crystal/UnitCell3.cpp: setBasis`. Theorems in `PropsUnitCell.v`: `drBasis_correct_partial`, `drBasis_correct_refuted`, `oblique_drBasis_misplaced`, `monoclinic_drBasis_negated`, `rhombohedral_drBasis_negated`, `dksq_correct_partial`, `angle_dksq_negated`, `dksq_correct_refuted`.

**C21 Replicating a unit cell multiplies its lattice vectors** (proved). All lattice systems, replica counts and parameters; also exactly which calls succeed.
Code: `src/prdc/crystal/replicateUnitCell.cpp`. Theorems in `PropsUnitCell.v`: `replicate_multiplies_vectors`, `replicate_succeeds_iff`.

**C22 Full and reduced lattice-parameter indices convert back and forth** (partial). Round trip and lengths hold for every lattice system, angles for all but alpha and beta of triclinic cells, whose parameters are the different angles phi and theta (refuted).
Code: `src/prdc/crystal/paramIdConversions.cpp`. Theorems in `PropsUnitCell.v`: `param_id_roundtrip`, `full_length_parameters`, `full_angle_parameters_partial`, `full_angle_parameters_refuted`.

**C23 The minimum image of a wavevector is an equivalent wavevector of minimal norm among the candidates** (partial). Image of v always; norm minimal over the candidates up to 5^D tolerances, exactly minimal (and lexicographically last) when distinct norms differ by more than the tolerance; exact minimum over all images and stable in one dimension and for orthogonal vectors. Minimality up to one absolute tolerance is refuted for large cells, stability for vectors far outside the first cell.
Code: `src/prdc/crystal/shiftToMinimum.cpp`. Theorems in `PropsShiftMin.v`: `shiftToMinimum_image`, `shiftToMinimum_minimal_partial`, `shiftToMinimum_exact`, `shiftToMinimum_1d`, `shiftToMinimum_orthogonal`, `shiftToMinimum_minimal_refuted`, `shiftToMinimum_stable_refuted`.

**C24 hasImplicitInverse identifies exactly the wavevectors whose inverse is missing from the half-space k-grid** (partial). False of the code: off by one, the vectors with n - i = n/2 + 1 are missed on every mesh with n >= 3; the weighted sum is proved for the right predicate and refuted for the coded one.
Code: `src/prdc/cpu/FFT.h: hasImplicitInverse, computeKMesh`, `src/prdc/cpu/WaveList.tpp: allocate, computedKSq`, `src/prdc/cuda/FFT.h`, `src/prdc/cuda/WaveList.tpp`. Theorems in `PropsFft.v`: `inverse_missing_iff`, `hasImplicitInverse_sound`, `hasImplicitInverse_misses`, `hasImplicitInverse_refuted`, `hasImplicitInverse_wrong_on_every_mesh`, `kgrid_weighted_sum`, `kgrid_weighted_sum_coded`, `kgrid_weighted_sum_refuted`.

**C25 Symmetry-adapted basis coefficients survive conversion to Fourier components and back** (proved). for every basis with the structure goodBasis; makeBasis_good and valid_good show that what makeBasis builds, and what isValid accepts with correct counts, has this structure; C25_inverse is the converse direction for symmetric real fields
Code: `src/prdc/field/fieldIoUtil.tpp: convertBasisToKGrid, convertKGridToBasis`, `src/prdc/crystal/Basis.tpp`. Theorems in `BasisValid.v`, `MakeBasisProofs.v`, `PropsBasis.v`, `PropsMakeBasis.v`: `C25_fourier`, `C25_roundtrip`, `C25_inverse`, `C25_makeBasis`, `C25_star_order`, `valid_good`, `valid_conjugate`, `makeBasis_good`, `reduceLoop_ok`.

**C26 Field files in real-space grid format round-trip** (proved). r-grid and k-grid field files: layout, round trip (rounded to the printed digits), rejection of truncated, non-finite and mismatched files, for any mesh and number of fields.
Code: `src/prdc/field/fieldIoUtil.tpp: readRGridData, writeRGridData`, `src/pscf/mesh/MeshIteratorFortran.tpp`. Theorems in `PropsFieldIo.v`: `C26_layout`, `C26_roundtrip`, `C26_roundtrip_exact`, `C26_single`, `C26_read`, `C26_nan_rejected`, `C26_truncated_rejected`, `C26_kgrid_roundtrip`, `C26_mesh_dimensions`, `C26_header`, `C26_file`, `C26_file_rejected`.

**C27 Replicating fields repeats them periodically** (partial). Replication and expansion are proved for all meshes and cells; expandRGridDimension accepts new dimensions that are not positive (refuted).
Code: `src/prdc/field/fieldIoUtil.tpp: replicateUnitCell, expandRGridDimension`. Theorems in `PropsFieldRep.v`: `C27_replicate`, `C27_replicate_rejected`, `C27_replicate_file`, `C27_expand`, `C27_expand_rejected`, `C27_expand_nonpositive_refuted`.

**C28 A basis-format field file with a malformed pair of inverse-related stars is rejected** (partial). false of the code: the two checks that the second star is the partner are assignments, so the first star of one pair followed by the second star of another pair is accepted and stored under the wrong star (C28_refuted); all other checks on the second line are proved, with the round trip of written files and the conversion of reversed pairs
Code: `src/prdc/field/fieldIoUtil.tpp: readBasisData`. Theorems in `BasisValid.v`, `PropsBasisIo.v`: `C28_pairs_partial`, `C28_refuted`, `C28_cancelled`, `C28_roundtrip`, `C28_reversed`, `valid_named`, `valid_indexed`.

**C29 Any order of field-setting calls is accepted by the w-field container and leaves consistent data** (partial). With both representations allocated any sequence of setters succeeds and both representations agree; for an unallocated container the accepted sequences are characterised exactly (symmetric data are refused after asymmetric data: refuted). A setter that throws half way, or a wrong isSymmetric argument, leaves the representations inconsistent (refuted).
Code: `src/prdc/field/WFieldsTmpl.tpp`, `src/prdc/field/MaskTmpl.tpp`. Theorems in `PropsFieldStore.v`: `wfields_any_order_when_allocated`, `wfields_fresh_accepts_iff`, `mask_any_order`, `symmetrize_consistent`, `wfields_any_order_refuted`, `failed_setBasis_consistent_refuted`, `dishonest_setRGrid_consistent_refuted`.

**C30 Concentration fields reported as available belong to the current fields and unit cell** (partial). For all sequences of operations that return normally, other than clear() on a container: reported c fields come from a compute after which w, h, mask and cell are unchanged and are those of the current state. clear() does not notify, and a setter that throws has changed fields without notification (refuted).
Code: `src/prdc/system/SystemTmpl.tpp: constructor observers, compute, clearCFields, setUnitCell`, `src/prdc/field/WFieldsTmpl.tpp`, `src/prdc/field/MaskTmpl.tpp`. Theorems in `PropsSystem.v`: `c_fields_current`, `c_fields_after_clear_refuted`, `c_fields_after_exception_refuted`.

**C31 Thermodynamic properties and concentrations reported as available belong to the current model parameters** (partial). After any history, everything reported since a compute is current until a parameter is modified or a container cleared; parameter modifications notify nobody (refuted).
Code: `src/prdc/system/SystemTmpl.tpp: clearCFields`, `src/prdc/system/ScftThermoTmpl.tpp: compute`, `src/prdc/solvers/MixtureModifierPrdc.tpp`. Theorems in `PropsSystem.v`: `current_since_compute`, `thermo_current_without_parameter_changes`, `thermo_after_parameter_change_refuted`, `c_fields_after_setKuhn_refuted`, `thermo_after_clear_refuted`.

**C32 Stress values reported as available belong to the current state** (partial). While c fields are reported, computeStress gives the stress of the current state. Without, it returns normally with stale or mixed values, or reads unset memory (refuted).
Code: `src/prdc/system/SystemTmpl.tpp: computeStress`, `src/prdc/solvers/MixturePrdc.tpp: compute, computeStress`. Theorems in `PropsSystem.v`: `current_since_compute`, `compute_stress_fresh`, `stress_after_new_w_refuted`, `stress_after_new_cell_refuted`, `stress_undefined_refuted`.

**C33 Every command in a command file is executed** (partial). Exact: all complete commands are executed in order, except an argument-less last command not followed by white space, which is lost (refuted).
Code: `src/prdc/system/SystemTmpl.tpp: readCommands`. Theorems in `PropsCommands.v`: `readCommands_exact`, `readCommands_all`, `runScript_log`, `all_commands_executed_refuted`, `integer_arguments_checked_refuted`, `command_arguments`, `other_words`, `further_arguments`.

**C34 The global polymer model cannot change after it has been locked** (proved). For all call sequences.
Code: `src/pscf/chem/PolymerModel.cpp`. Theorems in `PropsPolymerModel.v`: `model_fixed_after_lock`, `lock_cases`, `thread_xor_bead`, `model_text`, `readSystem_model`, `readSystem_calls`.

**C35 Interaction maps concentrations to fields and back** (proved). Any number of monomer types; for two types the inverse is the one computed by the code (C36), otherwise the GSL inverse is assumed to be an inverse.
Code: `src/pscf/inter/Interaction.cpp: updateMembers, fHelmholtz, computeW, computeC, computeXi`. Theorems in `PropsInteraction.v`: `interaction_xi_recovered`, `interaction_roundtrip`, `interaction_c_sums_to_one`, `interaction_fields_recovered`, `interaction_fHelmholtz_gradient`, `interaction_dWdC`, `setChi_current`, `setChi_value`.

**C36 A singular chi matrix is detected** (partial). Every nonzero singular symmetric matrix is detected; the zero matrix is not (refuted over the reals extended by NaN, and with IEEE doubles, where also underflow of the determinant gives infinite elements).
Code: `src/pscf/inter/Interaction.cpp: updateMembers`. Theorems in `PropsInteraction.v`: `singular_chi_detected_partial`, `singular_chi_detected_refuted`, `singular_chi_detected_double_refuted`.

**C37 The SCFT residual vanishes exactly at solutions of the SCFT equations** (proved). All Anderson mixing iterators and the Newton-Raphson iterator, both ensembles, with mask and external field. Beyond the claim: the binary relaxation iterator ignores the diagonal of chi, so its residual is right only for zero diagonal.
Code: `src/rpc/scft/iterator/AmIteratorBasis.tpp: getResidual`, `src/r1d/iterator/AmIterator.cpp: getResidual`, `src/pscf/iterator/AmbdInteraction.cpp: update`. Theorems in `PropsInteraction.v`: `residual_basis_zero_iff`, `residual_basis_zero_iff_canonical`, `residual_grid_zero_iff`, `residual_grid_zero_iff_canonical`, `residual_r1d_zero_iff`, `residual_nr_zero_iff`, `residual_nr_zero_iff_canonical`, `stress_residual_zero_iff`, `ambd_projector`, `binary_relax_zero_iff_partial`, `binary_relax_zero_iff_refuted`, `binary_relax_direction`.

**C38 Anderson mixing keeps its inner-product matrix equal to the matrix of inner products of the stored residual differences** (partial). Matrix, right-hand side and minimality proved for every iteration after the first of every solve, from every reachable state of the iterator, over exact real arithmetic with a non-finite value; LU solver assumed to solve nonsingular systems. Refuted for the first iteration of a continuation: the coefficients of the previous solve are reused, so the trial is not a stationary point (double-precision example).
Code: `src/pscf/iterator/AmIteratorTmpl.tpp: updateU, updateV, computeTrialCoeff`. Theorems in `PropsAm.v`: `C38_inner_product_matrix`, `C38_trial_minimises_residual`, `C38_continuation_stale_coefficients_refuted`.

**C39 The iterator reports success only when the error tolerance is met by the current fields** (partial). Proved for exact real arithmetic with a non-finite value and, for the meaning of return value 0, for any arithmetic. Refuted in double precision for failure: two successive infinite residuals make an inner product outside the try block throw, so solve raises an exception instead of returning 1.
Code: `src/pscf/iterator/AmIteratorTmpl.tpp: solve`. Theorems in `PropsAm.v`: `C39_solve_result`, `C39_success_any_arithmetic`, `C39_infinite_residual_escapes_refuted`.

**C40 A sweep takes increasing steps from 0 and ends at 1 or raises an error** (partial). Proved for every sequence of solver outcomes and every positive ns over exact arithmetic: start at 0, increasing, bounded by 1.0000001, halving only after failure, step never below a tenth without exception, exception only after a failed solve; ends at exactly 1 if ns < 1250000. The bound is needed: with ns = 10^7 the sweep ends at 1.0000001 (refuted).
Code: `src/pscf/sweep/SweepTmpl.tpp: sweep`. Theorems in `PropsSweep.v`: `C40_sweep_steps`, `C40_ends_at_one_refuted`.

**C41 Every sweep terminates** (partial). Terminates within 9 ns + 3 attempts for every ns >= 1; readParameters accepts negative ns and 0, for which the loop can run for ever (refuted; ns = 0 in double precision).
Code: `src/pscf/sweep/SweepTmpl.tpp: readParameters, sweep`. Theorems in `PropsSweep.v`: `C41_terminates`, `C41_negative_steps_refuted`, `C41_zero_steps_refuted`.

**C42 Continuation coefficients are exact for polynomials up to the history order** (proved). Lagrange coefficients exact for all polynomials of degree below the history size, for distinct contour values; in every sweep the stored values are distinct and are the most recent accepted ones.
Code: `src/pscf/sweep/SweepTmpl.tpp: setCoefficients`, `src/rpc/scft/sweep/Sweep.tpp: extrapolate`. Theorems in `PropsSweep.v`: `C42_extrapolation_exact`, `C42_cell_extrapolation`, `C42_sweep_extrapolation`.

**C43 Continuation transfers the extrapolated unit cell to the system** (partial). Transfer holds if every parameter changed (or in the first extrapolation); the flag is cleared by the first unchanged parameter, so a partly flexible cell keeps its old parameters (refuted).
Code: `src/rpc/scft/sweep/Sweep.tpp: extrapolate`, `src/rpc/scft/sweep/BasisFieldState.tpp: setSystemState`. Theorems in `PropsSweep.v`: `C43_cell_transferred_partial`, `C43_partly_flexible_refuted`.

**C44 A mix-and-match environment accepts its generators in either order** (partial). Holds if the mask generator comes first; with the external-field generator first reading always throws, even if it is the only one (refuted).
Code: `src/pscf/environment/MixAndMatchEnvTmpl.h`. Theorems in `PropsEnvironment.v`: `C44_mask_first_partial`, `C44_external_first`, `C44_roles`, `C44_refuted`.

**C45 Film environments reject lattices whose vectors are not orthogonal to the film normal** (partial). The inner products are compared without absolute value, so obtuse angles (every 2D hexagonal lattice) are accepted (refuted); normalVecId = D is accepted and then indexes out of bounds (refuted); exact acceptance condition proved.
Code: `src/prdc/environment/FilmFieldGenMaskBase.tpp: readParameters, checkLatticeVectors`. Theorems in `PropsFilm.v`: `C45_partial`, `C45_orthogonal_accepted`, `C45_hexagonal`, `C45_refuted`, `C45_parameters`, `C45_normalVecId_refuted`, `C45_normalVecId_undefined`, `C45_equal_thickness`, `C45_unnoticed`.

**C46 A rejected or failed Monte Carlo move leaves the simulator exactly as it was** (partial). Rejected and failed Monte Carlo moves and failed Brownian steps restore fields, components, Hamiltonian and derivatives, in any sequence; cc_ is left stale with hasCc_ true after a rejected force-bias move when needsCc is false (refuted).
Code: `src/rpc/fts/simulator/Simulator.tpp: saveState, restoreState, clearState, clearData`, `src/rpc/fts/montecarlo/McMove.tpp: move`, `src/rpc/fts/montecarlo/ForceBiasMove.tpp: move`. Theorems in `PropsFts.v`: `C46_unaccepted_restores`, `C46_sequences`, `C46_failed_step_restores`, `C46_cc_refuted`.

**C47 Force-bias moves satisfy detailed balance** (proved). Force-bias proposal density, acceptance weight and reverse move; detailed balance between the Gaussian proposals on a partially saddle-point compressed field.
Code: `src/rpc/fts/montecarlo/ForceBiasMove.tpp: move`. Theorems in `PropsFts.v`: `C47_proposal`, `C47_weight`, `C47_inverse`, `C47_detailed_balance`, `C47_move`.

**C48 Field moves change only exchange components and the compressor changes only the pressure component** (proved). analyzeChi (with the eigensolver by its specification), displacements along eigenvectors, compressors touch only the pressure field.
Code: `src/rpc/fts/montecarlo/RealMove.tpp: attemptMove`, `src/rpc/fts/brownian/ExplicitBdStep.tpp: step`, `src/rpc/fts/brownian/LMBdStep.tpp`, `src/rpc/fts/compressor/AmCompressor.tpp: update`, `src/rpc/fts/compressor/LrCompressor.tpp: updateWFields`, `src/rpc/fts/simulator/Simulator.tpp: computeWc, analyzeChi`. Theorems in `PropsFtsMoves.v`: `C48_eigenvectors`, `C48_displacement`, `C48_components_complete`, `C48_compressors`, `C48_accepted_moves`, `C48_brownian_steps`.

**C49 A field-theoretic simulation uses the Hamiltonian of the current parameters** (partial). Without a ramp Hamiltonian and derivatives always belong to the current fields and parameters; with a ramp the Hamiltonian of the preceding parameter values is used in the next acceptance test (refuted). The derivatives are the gradient of the Hamiltonian.
Code: `src/rpc/fts/ramp/LinearRamp.tpp: setParameters`, `src/rpc/fts/montecarlo/McSimulator.tpp: simulate`, `src/rpc/fts/simulator/Simulator.tpp`. Theorems in `PropsFtsMoves.v`: `C49_mc_without_ramp`, `C49_bd_without_ramp`, `C49_ramp_refuted`, `C49_gradient`, `C49_guards`.

**C50 A ramp or sweep parameter written to a file can be read back** (partial). Round trip of the text of ramp and sweep parameters for all types, including specialized ones, except v_monomer of ramps (written as vMonomer, refuted) and cell_param of one-dimensional sweeps (type() throws, refuted). Streams are token lists; formatting of numbers is not modelled.
Code: `src/rpc/fts/ramp/RampParameter.tpp: readParamType, type`, `src/rpc/scft/sweep/SweepParameter.tpp`, `src/r1d/sweep/SweepParameter.cpp`. Theorems in `PropsParamIo.v`: `C50_ramp`, `C50_ramp_words`, `C50_sweep_words`, `C50_r1d_sweep_words`, `C50_vmonomer_refuted`, `C50_sweep`, `C50_r1d_sweep`, `C50_r1d_cell_refuted`.

**C51 Simulations sample each analyzer exactly at its interval, and run without analyzers** (partial). Sampling schedule of Monte Carlo and Brownian dynamics simulations for all outcomes of the moves; a Monte Carlo simulation without an AnalyzerManager block always throws (refuted), and so does analyze with baseInterval above one (refuted).
Code: `src/rpc/fts/montecarlo/McSimulator.tpp: simulate`, `src/rpc/fts/brownian/BdSimulator.tpp: simulate`, `src/rpc/fts/analyzer/AnalyzerManager.tpp: sample`, `src/rpc/fts/analyzer/Analyzer.tpp`. Theorems in `PropsAnalyzers.v`: `C51_mc`, `C51_bd`, `C51_bd_no_analyzers`, `C51_mc_no_analyzers_refuted`, `C51_analyze`, `C51_analyze_base_refuted`.

**C52 Basis change of monomer fields is invertible** (proved). Lossless change of monomer basis for any chi eigenvector matrix with the stated normalisation.
Code: `src/prdc/cpu/FieldBasisConverter.tpp`. Theorems in `PropsBasisConv.v`: `C52_setBasis`, `C52_error`, `C52_roundtrip`, `C52_component`, `C52_shapes`.

**C53 The relaxation iterator can recover from a step that increases the error** (partial). A step that increases the error is never followed by a successful one (refuted); success and monotone error are proved for all runs.
Code: `src/r1d/iterator/BinaryRelaxIterator.cpp: solve, computeDW`. Theorems in `PropsBinaryRelax.v`: `C53_no_recovery`, `C53_success`, `C53_monotone`, `C53_ensembles`, `C53_gauge`, `C53_refuted`.

**C54 Debye functions are continuous approximations of the ideal-chain correlation functions** (partial). Exact for large arguments; the small-argument branches of dt, db and eb are only first-order accurate (refuted) and dt jumps at the branch point.
Code: `src/pscf/chem/Debye.cpp: dt, db`. Theorems in `PropsDebye.v`: `C54_dt_large`, `C54_et_large`, `C54_db_large`, `C54_eb_large`, `C54_et_small`, `C54_dt_small_partial`, `C54_bead_small_partial`, `C54_dt_small_refuted`, `C54_db_small_refuted`, `C54_eb_small_refuted`, `C54_dt_jump_refuted`.

**C55 Field comparison reports the true maximum and root-mean-square differences** (partial). Full for fields of equal size; refuted for fields of different sizes and for basis comparison, which ignores component 0.
Code: `src/pscf/math/FieldComparison.tpp: compare`. Theorems in `PropsCompare.v`: `C55_field`, `C55_fields`, `C55_complex_field`, `C55_complex_fields`, `C55_begin`, `C55_symmetric`, `C55_sizes`, `C55_nan`, `C55_unequal_sizes_refuted`, `C55_basis_refuted`, `C55_basis_mean_refuted`.

**C56 Homogeneous mixtures: composition, concentrations and chemical potentials are consistent** (partial). Proved over the reals for all mixtures and any linear solver. Refuted: in doubles a valid composition can be refused, and an absent species gives a NaN free energy.
Code: `src/pscf/floryHuggins/Mixture.cpp: setComposition, computeC, computeMu, computeFreeEnergy`. Theorems in `PropsFloryHuggins.v`: `C56_composition`, `C56_mu`, `C56_free_energy`, `C56_pressure`, `C56_mu_derivative`, `C56_jacobian`, `C56_computePhi`, `C56_inverse`, `C56_polymer`, `C56_polymer_bead`, `C56_solvent`, `C56_accepted_refuted`, `C56_absent_refuted`.

**C57 Uniform fields give the exact partition function and uniform concentrations** (proved). All architectures (double counting over the vertices of the tree), both polymer models.
Code: `src/rpc/solvers/Block.tpp: stepThread, stepBead, computeExpKsq, setupSolver`, `src/rpc/solvers/Propagator.tpp: solve, computeQ`, `src/rpc/solvers/Polymer.tpp: compute`. Theorems in `PropsUniform.v`: `rpc_uniform_fields`.

**C58 Stored basis vectors belong to the stored lattice parameters** (partial). Holds for every sequence of operations without serialize(); loading from an archive replaces the parameters without recomputing the vectors (refuted).
Code: `src/prdc/crystal/UnitCellBase.tpp: setLattice, setParameters`, `src/prdc/crystal/UnitCell.h: operator >>, serialize`, `src/prdc/crystal/UnitCell2.cpp: set, operator =`. Theorems in `PropsUnitCell.v`: `unit_cell_always_current`, `unit_cell_always_current_refuted`.

**C59 The symmetry test accepts exactly the symmetric fields** (partial). symmetric fields are accepted and accepted fields have consistent stored components; false in general: with inversion in the group a field odd under inversion passes for every tolerance, since implicit waves are not compared
Code: `src/prdc/field/fieldIoUtil.tpp: hasSymmetry, convertKGridToBasis`. Theorems in `PropsBasis.v`: `C59_complete`, `C59_stored`, `C59_refuted`.

**C60 Sweep parameters of an environment take effect** (partial). A sweep sets the parameter of the generator directly, the environment is not marked for update and the fields stay (refuted). Through setParameter of the environment the claim holds.
Code: `src/prdc/environment/MixAndMatchEnv.tpp: setParameter, getParameterTypes, generate`, `src/prdc/environment/FilmFieldGenExtBase.tpp: needsUpdate, setParameter, getParameterTypes`. Theorems in `PropsEnvironment.v`: `C60_generated`, `C60_sweep_ignored`, `C60_refuted`, `C60_partial`.

**C61 The stress stored by an environment is the modified stress of the mixture** (proved). For all generators; the stress contributions themselves are the subject of C63.
Code: `src/prdc/environment/MixAndMatchEnv.tpp: modifyStress, computeStress, stress`, `src/rpc/environment/FilmFieldGenMask.tpp: modifyStress`. Theorems in `PropsEnvironment.v`: `C61_stress`, `C61_film`, `C61_excess`.

**C62 Mask and external fields of a film have the symmetry of the space group** (proved). On the level of the film environment with both generators.
Code: `src/prdc/environment/FilmFieldGenMaskBase.tpp: checkSpaceGroup`, `src/prdc/environment/FilmFieldGenExtBase.tpp: checkCompatibility, hasSymmetricWalls`, `src/rpc/environment/FilmFieldGenMask.tpp: compute`, `src/rpc/environment/FilmFieldGenExt.tpp: compute`. Theorems in `PropsFilm.v`: `C62_film_symmetric`.

**C63 The stress of a thin film is the derivative of its free energy** (partial). C63_stress: the sum of the three contributions is the derivative of the free energy up to (p/P)(mean of the derivative of the mask - T/L^2), for any smooth family of solutions. The code uses T/L^2 for the change of the mean of the mask, which holds neither on the grid nor exactly in the continuum (C63_mean_refuted gives a film where the two differ by a factor of five). chi(0,j) of size up to 1e-6 are ignored by the code and excluded by a hypothesis. The response of polymer partition functions to the fields is a hypothesis (proved for solvents in C65_solvents, for polymers of beads in C66_polymers).
Code: `src/rpc/environment/FilmFieldGenMask.tpp:60-203`, `src/rpc/environment/FilmFieldGenExt.tpp:58-150`. Theorems in `PropsFilmStress.v`: `C63_mask`, `C63_external`, `C63_stress`, `C63_others`, `C63_modified`, `C63_mean_refuted`.

**C64 Lattice parameters that stay flexible in a film keep it a film** (partial). False for triclinic cells with the first vector as normal, where the azimuth stays flexible and the polar angle becomes rigid (refuted); proved for all other cells.
Code: `src/prdc/environment/FilmFieldGenMaskBase.cpp: modifyFlexibleParams`. Theorems in `PropsFilm.v`: `C64_only_rigid`, `C64_orthogonal_partial`, `C64_refuted`.

**C65 Reported SCFT free energy and pressure** (partial). Value of the reported free energy and pressure, independence of the representation of the fields (given that the basis is orthonormal), shift invariance, homogeneous limit and Hellmann-Feynman derivative. Species of volume fraction in (0,1e-8] and chi with 0<|chi|<=1e-9 are skipped by the code and excluded by a hypothesis; the response of the concentrations (derivative of ln q) is proved for solvents here and for polymers of the bead model in C66.
Code: `src/prdc/system/ScftThermoTmpl.tpp:51-247`, `src/rpc/scft/ScftThermo.cpp:41-52`. Theorems in `PropsThermo.v`: `C65_value`, `C65_shift`, `C65_response`, `C65_solvents`, `C65_homogeneous`.

**C66 The periodic stress is the derivative of the free energy with respect to the lattice parameters (bead model)** (partial). Bead model, exact arithmetic. C66_polymer/C66_stress: with every wave of the half grid counted as often as in the full grid, concentrations and stress are the exact derivatives of ln q, and the stress that of the free energy along any path of solutions. The coded weights miss one copy of the waves with last index n-n/2-1 (C24): C66_code gives the deficit, C66_code_exact when it vanishes, C66_polymer_refuted a dimer on 4 points where the coded stress is wrong. C66_lattice combines this with dksq_correct_partial (not the parameters whose derivatives are wrong, C20). The thread model, where Simpson integration makes the stress approximate, is C70.
Code: `src/prdc/cpu/WaveList.tpp:166-203`, `src/rpc/solvers/Block.tpp:537-738`, `src/rpc/solvers/Polymer.tpp:93-125`, `src/prdc/solvers/MixturePrdc.tpp:230-268`. Theorems in `PropsStress.v`: `C66_polymer`, `C66_polymers`, `C66_stress`, `C66_code`, `C66_code_exact`, `C66_polymer_refuted`, `C66_lattice`.

**C67 The thread-model solver converges to the continuous-chain theory with fourth order in the contour step** (proved). Exact arithmetic. The reference is the modified diffusion equation on the grid, with the Laplacian of trigonometric interpolation on the full grid; the discretization error in space is not part of the claim. |k|^2 must be even on the full grid, as minimum images of exact lattices are; operators with other coefficients on the half grid do not compose. The concentrations need a reference partition function different from zero.
Code: `src/rpc/solvers/Block.tpp:126-131`, `src/rpc/solvers/Block.tpp:277-347`, `src/rpc/solvers/Block.tpp:434-490`, `src/rpc/solvers/Propagator.tpp:243-276`, `src/rpc/solvers/Polymer.tpp:59-88`. Theorems in `PropsConvergence.v`: `C67_reference_unique`, `C67_propagators_converge`, `C67_partition_function_converges`, `C67_density_converges`.

**C68 Cached wavevector data always belong to the current unit cell, and |k|^2 is even** (partial). Freshness, availability after a request, derivatives for cells with fixed angles and evenness are proved whenever the image search finds shortest images; the search is proved to succeed for 1D, square, cubic, hexagonal cells with equal numbers of points, and orthogonal cells with lengths spaced by more than the tolerance. The unconditional claim is false: on the mesh 3 x 48 of a hexagonal cell the search window of +-2 gives the inverse waves (1,24) and (2,24) different |k|^2, the first not minimal (C68_even_refuted). Not proved: success of the search for cells with variable angles.
Code: `src/prdc/cpu/WaveList.tpp:49-206`, `src/prdc/crystal/hasVariableAngle.cpp:13-42`, `src/prdc/crystal/shiftToMinimum.cpp:34-102`. Theorems in `PropsWaveList.v`: `C68_fresh`, `C68_available`, `C68_derivatives`, `C68_even`, `C68_search_succeeds`, `C68_even_refuted`, `C68_images_depend_on_angle`.

**C69 Stars are the orbits of the space group and the basis spans exactly the symmetric fields** (proved). Hypotheses the code does not check itself are collected in the record built: the list of operations is a group with translations in [0,1) (SymmetryGroup::isValid tests it, C17), translations are multiples of 1/N with N at most 500 so that tolerances separate phases, the number of points along axis 0 is divisible by their denominators (checkMeshDimensions skips axis 0: mesh_check_sound_refuted), and shiftToMinimum returns an equivalent wave (C23). built4_built shows a group of four operations with a cancelled star meeting all of them.
Code: `src/prdc/crystal/Basis.tpp:78-905`, `src/prdc/crystal/TWave.h:20-88`, `src/prdc/crystal/SpaceSymmetry.h:445-458`, `src/prdc/field/fieldIoUtil.tpp`. Theorems in `PropsOrbit.v`: `C69_orbits`, `C69_cancelled`, `C69_coefficients`, `C69_span`, `C69_fields`, `built4_built`, `makeBasis_runs4`.

**C70 Stress of the thread model converges to the derivative of the free energy** (partial). Thread model of rpc, exact arithmetic. C70_polymer: computed concentrations and stress give the derivative of ln Q of the continuous-chain theory up to C ds^4. C70_stress: the stress with every wave counted as in the full grid is within C ds^4 of the derivative of the exact free energy along any path of solutions; existence of that derivative is part of the theorem, that the concentrations are differentiable is assumed. The coded weights miss one copy of the waves with last index n-n/2-1 (C24): C70_code gives the limit of the coded stress, C70_code_exact when it is right, C70_refuted a polymer and a solvent on three points where the coded stress converges to half the derivative.
Code: `src/rpc/solvers/Block.tpp:537-613`, `src/rpc/solvers/Polymer.tpp:93-125`, `src/prdc/solvers/MixturePrdc.tpp:230-268`, `src/prdc/cpu/WaveList.tpp:166-203`. Theorems in `PropsThreadStress.v`: `C70_polymer`, `C70_stress`, `C70_code`, `C70_code_exact`, `C70_refuted`.

**C71 GPU reductions return the reduction of the whole array** (partial). Small-step semantics of a block: threads interleave arbitrarily between barriers, the last warp runs in lockstep. Exact results for arrays of at most 2^24 elements and any accepted setting; minAbs needs at least half a block of elements. Refuted: sums of more than 2^24 elements drop the last ones (float rounding of the size), minAbs of shorter arrays reads out of bounds, independent thread scheduling gives wrong results, NaN is dropped by maxAbs.
Code: `src/prdc/cuda/Reduce.cu`, `src/pscf/cuda/ThreadArray.cu`, `src/rpg/scft/iterator/AmIteratorGrid.tpp:412-420`. Theorems in `PropsGpuReduce.v`: `C71_sum_covered`, `C71_sum`, `C71_innerProduct`, `C71_max`, `C71_min`, `C71_maxAbs`, `C71_minAbs`, `C71_minAbs_small`, `C71_sum_refuted`, `C71_independent_threads_refuted`, `C71_nan_refuted`.

**C72 Execution configurations on a mesh cover every grid point exactly once** (partial). Proved for every state reached by calls that returned normally for meshes of one dimension D (the only use in the code). Refuted for calls of different D, after an exception, and after setThreadsPerBlock, where a stale configuration is reused; setThreadsPerBlock also accepts sizes above the limit of the device.
Code: `src/pscf/cuda/ThreadMesh.cu`, `src/rpg/environment/FilmFieldGenMask.tpp:50-95`, `src/rpg/environment/FilmFieldGenExt.tpp:55-105`. Theorems in `PropsGpuMesh.v`: `C72_cover`, `C72_shape`, `C72_dimension_refuted`, `C72_exception_refuted`, `C72_setting_refuted`.

**C73 GPU wavevector data are those of the current unit cell, and the same as on the CPU** (partial). Proved for all interleavings, orders of blocks, sizes and operation sequences, for waves whose image lengths differ by more than epsilon or not at all, block sizes that the device supports, and fewer than 2^31 threads; images and derivatives equal those of the CPU for orthogonal cells of any mesh and hexagonal cells with n1 < 2 n0. Refuted without these: on a 2 x 28 hexagonal mesh the GPU window is larger and finds shorter images than the CPU; without lockstep execution the 2D reduction can return a wrong image; kSize*128 overflows an int from 2^24 waves on; minImages_h uses an array that is never allocated, with a wrong stride; a refused launch is reported as success.
Code: `src/prdc/cuda/WaveList.tpp`, `src/prdc/cuda/WaveList.h`, `src/prdc/cpu/WaveList.tpp`, `src/prdc/crystal/shiftToMinimum.cpp`. Theorems in `PropsGpuWave.v`: `C73_images`, `C73_fresh`, `C73_same`, `C73_near`, `C73_same_refuted`, `C73_lockstep_refuted`, `C73_overflow_refuted`, `C73_host_images_refuted`, `C73_launch_refuted`.

**C74 Element-wise operations on device arrays compute their formulas** (partial). All 74 kernels transcribed statement by statement, threads interleave between statements, memory is a map of words with unallocated and uninitialised words. Proved for slices with indices >= 0 whose outputs are separate from the other slices, or equal to an argument they may share. Refuted: negative first indices and, with more than two vectors, short arrays are not refused; complex mulVV, mulVS, expV in place and mulVVPair with b2 = a1 use overwritten words; overlapping slices race; wrappers in Block.tpp ignore refused launches. Exact arithmetic; division by zero excluded.
Code: `src/prdc/cuda/VecOp.cu`, `src/prdc/cuda/VecOp.h`, `src/prdc/cuda/VecOpMisc.cu`, `src/prdc/cuda/VecOpMisc.h`, `src/rpg/solvers/Block.tpp`, `src/pscf/cuda/ThreadArray.cu`. Theorems in `PropsVecOp.v`: `C74_kernel`, `C74_slices`, `C74_whole`, `C74_misc`, `C74_many`, `C74_offset_refuted`, `C74_many_refuted`, `C74_in_place_refuted`, `C74_pair_refuted`, `C74_overlap_refuted`, `C74_launch_refuted`.

**C75 Polymer solver on the GPU computes what the CPU solver computes** (partial). Proved of compute() for all trees, both models, all placements of arrays and all interleavings (C75_compute), and of computeStress() after it (C75_stress) if, for batched transforms in the bead model, the solution arrays hold defined numbers beforehand: the last slice of a propagator that ends the chain is never written (C75_bead_tail_refuted) and the batched transform reads it (C75_stress_undefined). solve(head) leaves the tail slice that tail() returns unset in the bead model (C75_solve_head_refuted). cuFFT is modelled by its definition over the real numbers.
Code: `src/rpg/solvers/Block.tpp`, `src/rpg/solvers/Propagator.tpp`, `src/rpg/solvers/Propagator.h`, `src/rpg/solvers/Polymer.tpp`, `src/pscf/solvers/PolymerTmpl.tpp`, `src/prdc/cuda/FFT.tpp`, `src/prdc/cuda/FFTBatched.tpp`. Theorems in `PropsGpuPolymer.v`: `C75_compute`, `C75_mass`, `C75_stress`, `C75_stress_undefined`, `C75_bead_tail_refuted`, `C75_solve_head_refuted`.

**C76 Device arrays own their memory once, and slices stay inside their owner** (partial). Proved for all programs that meet the preconditions of DevArraySpec.v (arrays outlive their slices, no copy constructor, no overlapping assignment, no negative first index): one owner per element, no use of memory that is not allocated, failed calls change nothing, assignments copy exactly. Programs that moreover deallocate only arrays without slices never terminate and never see a stale slice (C76_tidy); fields keep dimensions and capacity equal (C76_mesh) if allocate() is not called for a field with data; the arrays of a propagator are laid out correctly after any number of reallocations (C76_propagator). Without the preconditions the claims are false: the _refuted theorems.
Code: `src/pscf/cuda/DeviceArray.h`, `src/pscf/cuda/HostDArray.h`, `src/prdc/cuda/RField.tpp`, `src/rpg/solvers/Propagator.tpp`, `src/rpg/solvers/Propagator.h`. Theorems in `PropsDevArray.v`, `PropsDevPropagator.v`: `C76_safe`, `C76_exceptions`, `C76_assignment`, `C76_association`, `C76_stale`, `C76_tidy`, `C76_mesh`, `C76_propagator`, `C76_copy_constructor_refuted`, `C76_stale_refuted`, `C76_dangling_refuted`, `C76_overlap_refuted`, `C76_copySlice_refuted`, `C76_mesh_refuted`.

**C77 Intramolecular correlation function of branched chains** (partial). EdgeIterator and IntraCorrelation modelled over reals, one wavevector at a time. Route existence and uniqueness, the iterator, exactness at k = 0 and above the threshold, the error bound for all k, the k = 0 value and positivity are proved for all architectures, species and both chain models. Exactness for all k is false (C77_exact_refuted: small-argument branch of Debye::dt).
Code: `src/pscf/chem/EdgeIterator.cpp`, `src/rpc/fts/compressor/IntraCorrelation.tpp`, `src/rpg/fts/compressor/IntraCorrelation.tpp`, `src/pscf/chem/Debye.cpp`. Theorems in `PropsIntra.v`: `C77_route`, `C77_edges`, `C77_edges_same`, `C77_exact`, `C77_bound`, `C77_zero`, `C77_positive`, `C77_pairs_exist`, `C77_exact_refuted`.

**C78 Linear-response correction is the Newton step of the bead solver** (partial). Response of the bead-model mixture at a homogeneous state and the compressor correction. The response and the step are proved for all inputs; that the step is exactly the Newton step needs every nonzero k above the threshold of the Debye series (below it C78_step gives the factor S/S_code, with |S - S_code| <= 2e-5 of the k = 0 value). Thread model not covered: its solver is a discretisation whose response differs from the continuous Debye function.
Code: `src/prdc/solvers/MixturePrdc.tpp`, `src/rpc/fts/compressor/LrCompressor.tpp`, `src/rpc/fts/compressor/IntraCorrelation.tpp`, `src/rpc/solvers/Block.tpp`, `src/rpc/solvers/Solvent.tpp`. Theorems in `PropsResponse.v`: `C78_response`, `C78_step`, `C78_newton_partial`.

**C79 Analyzers report the derivatives of the free energy** (partial). Concentration and lambda derivatives and the Hamiltonian terms are right for all states. ChiDerivative is right for a chi matrix without diagonal elements and without perturbation; it is not the derivative with diagonal elements (C79_chi_diagonal_refuted) nor, with an Einstein crystal perturbation, the derivative of the sampled Hamiltonian (C79_chi_perturbed_refuted).
Code: `src/rpc/fts/analyzer/ChiDerivative.tpp`, `src/rpc/fts/analyzer/ConcentrationDerivative.tpp`, `src/rpc/fts/analyzer/PerturbationDerivative.tpp`, `src/rpc/fts/analyzer/HamiltonianAnalyzer.tpp`, `src/rpc/fts/perturbation/EinsteinCrystalPerturbation.tpp`, `src/rpc/fts/simulator/Simulator.tpp`. Theorems in `PropsDeriv.v`: `C79_chi_partial`, `C79_concentration`, `C79_perturbation`, `C79_hamiltonian`, `C79_simulation`, `C79_chi_diagonal_refuted`, `C79_chi_perturbed_refuted`.

**C80 Order parameters and structure factors of field-theoretic simulations** (partial). MaxOrderParameter is proved in full (undefined exactly for a grid of one point). FourthOrderParameter is proved for every one-dimensional grid, in general if the minimum images of opposite wavevectors of the half grid are opposite, and within a factor 2 otherwise; the unconditional statement is refuted in two dimensions. BinaryStructureFactorGrid writes the mean over the half grid at well separated wavenumbers; this is the mean over the shell if its points have equal multiplicity, and the general statement is refuted. Device versions evaluate the same expressions and are not modelled separately.
Code: `src/rpc/fts/analyzer/FourthOrderParameter.tpp:61-227`, `src/rpc/fts/analyzer/MaxOrderParameter.tpp:58-131`, `src/rpc/fts/analyzer/BinaryStructureFactorGrid.tpp:71-247`, `src/prdc/crystal/shiftToMinimum.cpp:16-102`. Theorems in `PropsOrderParam.v`: `C80_prefactor`, `C80_prefactor_again`, `C80_fourth_bounds`, `C80_fourth_partial`, `C80_fourth_1d`, `C80_fourth_refuted`, `C80_max`, `C80_max_defined`, `C80_structure`, `C80_structure_value`, `C80_batches`, `C80_shell_partial`, `C80_shell_refuted`, `C80_tolerance_refuted`, `C80_second_setup_refuted`.

**C81 Host complex arithmetic, vector operations and reductions, with shared arguments** (partial). Proved for every function and every separate or identical argument, except that mul, square and div of complex numbers need a result apart from their arguments (refuted otherwise), that vector operations need identical or disjoint arrays (refuted for overlapping ones), and that the extrema report a NaN only if it is the first element (refuted otherwise; with any NaN later the result is proved to be the extremum of the numbers). Sums and inner products are exact and report every NaN. Arithmetic is exact; infinities are not modelled.
Code: `src/prdc/cpu/complex.h:28-470`, `src/prdc/cpu/VecOp.cpp:18-303`, `src/prdc/cpu/Reduce.cpp:18-108`. Theorems in `PropsHostOps.v`: `C81_complex`, `C81_complex_quotient`, `C81_complex_product`, `C81_complex_alias_refuted`, `C81_complex_abs`, `C81_vector`, `C81_overlap_refuted`, `C81_reduce`, `C81_reduce_nan`, `C81_reduce_nan_refuted`, `C81_sum`, `C81_inner`.

**C82 Parameters follow their straight line in sweeps and ramps** (partial). Proved for every list in which no value of the system is governed by two entries: the values after setParameters, their independence of the state before, the sum of volume fractions, and that success at two path variables gives success between them. Refuted: lists that name a value twice are accepted, negative indices are not refused, and the last path variable of a sweep in double precision may exceed 1 and be rejected. Derived data (contour steps, inverse of chi, cached factors) is not in this model; a specialized parameter is taken to be a value of its own.
Code: `src/rpc/scft/sweep/LinearSweep.tpp:24-82`, `src/rpc/scft/sweep/SweepParameter.tpp:190-260`, `src/rpc/fts/ramp/LinearRamp.tpp:30-84`, `src/rpc/fts/ramp/RampParameter.tpp:184-257`, `src/prdc/solvers/MixtureModifierPrdc.tpp:44-105`, `src/pscf/sweep/SweepTmpl.tpp:61-146`, `src/pscf/chem/Species.cpp:43-58`. Theorems in `PropsLinearPath.v`: `C82_parameters`, `C82_ramp_end`, `C82_between`, `C82_setup`, `C82_total`, `C82_twice_refuted`, `C82_chi_refuted`, `C82_negative_refuted`, `C82_end_refuted`.

**C83 Field files of one-dimensional systems and their change of mesh** (partial). Proved for reading, writing, interpolation (new and old size at least 2) and extension. Reading is complete only if the stream has not failed: a file that ends within its last row is accepted and old values stay (C83_short_refuted; C83_read_failed shows that only the last row can be incomplete). The new size is not checked: one point gives two rows, a negative extension more rows than announced (C83_dimension_refuted). Exact arithmetic; text as tokens, printed numbers through an arbitrary function fmt. Not modelled: writeBlockCFields, writeVertexQ, file names.
Code: `src/r1d/misc/FieldIo.cpp:61-92`, `src/r1d/misc/FieldIo.cpp:129-155`, `src/r1d/misc/FieldIo.cpp:268-327`, `src/r1d/misc/FieldIo.cpp:341-378`. Theorems in `PropsR1dFieldIo.v`: `C83_read`, `C83_read_sound`, `C83_read_failed`, `C83_short_refuted`, `C83_write`, `C83_roundtrip`, `C83_remesh`, `C83_remesh_keeps`, `C83_remesh_same`, `C83_remesh_read`, `C83_extend`, `C83_dimension_refuted`.

**C84 Free energy of one-dimensional systems and comparison to the homogeneous mixture** (partial). Free energy, pressure, homogeneous limit and shift for all systems (species of volume fraction at most 1e-8 are left out by the code). The comparison is proved for at most one solvent in mode 0 and for none in modes 1 and 2; it is undefined otherwise, since the work arrays are set for polymers only and the output reads polymer(i) for all species (C84_solvents, C84_solvents_refuted). Exact arithmetic; formatting of the output is not modelled; that memory of a new array is indeterminate is taken from its use of new double[n] (src/util is not in the repository).
Code: `src/r1d/System.cpp:508-603`, `src/r1d/misc/HomogeneousComparison.cpp:57-112`, `src/r1d/misc/HomogeneousComparison.cpp:120-195`, `src/pscf/floryHuggins/Mixture.cpp:186-206`. Theorems in `PropsR1dThermo.v`: `C84_free_energy`, `C84_uniform`, `C84_shift`, `C84_mode0`, `C84_mode12`, `C84_no_excess`, `C84_solvents`, `C84_solvents_refuted`.

**C85 Newton-Raphson iterator of one-dimensional systems** (partial). Success, descent and consistency are proved for numbers, for every linear solver; with an exact one and an affine residual two iterations suffice. Two parts of the statement are false of the code: the norm skips NaN, so that concentrations that are not numbers count as converged; and the test for the canonical ensemble looks at polymers only, so that with an open solvent the last grid point is not constrained. Infinities and rounding are not modelled.
Code: `src/r1d/iterator/NrIterator.cpp:82-136`, `src/r1d/iterator/NrIterator.cpp:181-225`, `src/r1d/iterator/NrIterator.cpp:227-367`. Theorems in `PropsNrIterator.v`: `C85_success`, `C85_last_point`, `C85_descent`, `C85_solution`, `C85_newton`, `C85_ensemble`, `C85_nan_refuted`, `C85_solvent_refuted`.

**C86 Trajectory files are read back as they were written** (partial). The round trip is proved for finite values. Two parts are false of the code: the reader skips the line of mesh dimensions without comparing it, so that a 2x3 frame is read on a 3x2 mesh with other values; and a value that is not finite is written as a word that cannot be read. The step is not read either: analysis of a trajectory counts frames. The header (FieldIo.v) is left out; getNextLine, which is not in the repository, is taken to skip empty lines.
Code: `src/rpc/fts/analyzer/TrajectoryWriter.tpp:53-101`, `src/rpc/fts/trajectory/RGridTrajectoryReader.tpp:81-124`, `src/prdc/field/fieldIoUtil.tpp:254-317`. Theorems in `PropsTrajectory.v`: `C86_roundtrip`, `C86_step_not_read`, `C86_mesh_refuted`, `C86_nan_refuted`.

## Assumptions of each theorem

No axioms:
`mesh_constructible`, `mesh_rank_position_bijection`, `mesh_rank_lexicographic`, `mesh_iterator_visits_all_in_order`, `mesh_iterator_fortran_visits_all`, `mesh_shift_coordinate`, `mesh_shift_position`, `mesh_isInMesh_iff_no_shift`, `mesh_serialize_roundtrip_refuted`, `mesh_serialize_never_restores`, `polymer_plan_is_valid_order`, `polymer_read_fuel_independent`, `linear_polymer_is_tree`, `polymer_signposts_route_everywhere`, `polymer_accepted_is_tree`, `polymer_invalid_graph_hangs`, `polymer_invalid_graph_rejected_refuted`, `polymer_self_loop_rejected`, `inverse_missing_iff`, `hasImplicitInverse_sound`, `hasImplicitInverse_misses`, `hasImplicitInverse_refuted`, `hasImplicitInverse_wrong_on_every_mesh`, `symm_product_is_composition`, `symm_respects_lattice`, `symm_wave_action_composes`, `symm_inverse_correct`, `symm_inverse_rejects`, `symm_translations_normalized`, `symm_normalize_correct`, `symm_shiftOrigin_conjugates`, `symm_group_laws`, `symm_equal_iff_same_action`, `space_group_completion`, `space_group_completion_terminates`, `space_group_isValid_iff`, `space_group_add_unique`, `space_group_add_unique_refuted`, `inversion_center_correct`, `shiftOrigin_homomorphism`, `mesh_check_sound_partial`, `mesh_check_sound_refuted`, `param_id_roundtrip`, `singular_chi_detected_double_refuted`, `C38_continuation_stale_coefficients_refuted`, `C39_success_any_arithmetic`, `C39_infinite_residual_escapes_refuted`, `C41_zero_steps_refuted`, `C50_ramp`, `C50_ramp_words`, `C50_sweep_words`, `C50_r1d_sweep_words`, `C50_sweep`, `C50_r1d_sweep`, `C51_mc`, `C51_bd`, `C51_bd_no_analyzers`, `C51_mc_no_analyzers_refuted`, `C51_analyze`, `C51_analyze_base_refuted`, `wfields_any_order_when_allocated`, `wfields_fresh_accepts_iff`, `mask_any_order`, `symmetrize_consistent`, `c_fields_current`, `c_fields_after_clear_refuted`, `c_fields_after_exception_refuted`, `current_since_compute`, `thermo_current_without_parameter_changes`, `thermo_after_parameter_change_refuted`, `c_fields_after_setKuhn_refuted`, `thermo_after_clear_refuted`, `compute_stress_fresh`, `stress_after_new_w_refuted`, `stress_after_new_cell_refuted`, `stress_undefined_refuted`, `readCommands_exact`, `readCommands_all`, `runScript_log`, `all_commands_executed_refuted`, `integer_arguments_checked_refuted`, `command_arguments`, `other_words`, `further_arguments`, `model_fixed_after_lock`, `lock_cases`, `thread_xor_bead`, `model_text`, `readSystem_model`, `readSystem_calls`, `C52_setBasis`, `C53_ensembles`, `C56_accepted_refuted`, `C26_layout`, `C26_mesh_dimensions`, `C27_replicate`, `C44_mask_first_partial`, `C44_external_first`, `C44_roles`, `C60_sweep_ignored`, `C64_only_rigid`, `C71_independent_threads_refuted`, `C71_nan_refuted`, `C72_cover`, `C72_shape`, `C72_dimension_refuted`, `C72_exception_refuted`, `C72_setting_refuted`, `C73_overflow_refuted`, `C73_host_images_refuted`, `C77_route`, `C77_edges`, `C77_edges_same`, `C80_second_setup_refuted`, `C82_end_refuted`, `C85_ensemble`.

Using `ClassicalDedekindReals.sig_forall_dec`:
`r1d_domain_setters_valid`, `C50_vmonomer_refuted`, `C50_r1d_cell_refuted`, `C52_shapes`, `C26_roundtrip`, `C26_roundtrip_exact`, `C26_single`, `C26_read`, `C26_nan_rejected`, `C26_truncated_rejected`, `C26_kgrid_roundtrip`, `C44_refuted`, `C61_stress`, `C76_safe`, `C76_exceptions`, `C76_assignment`, `C76_association`, `C76_stale`, `C76_tidy`, `C76_mesh`, `C76_propagator`, `C76_copy_constructor_refuted`, `C76_stale_refuted`, `C76_dangling_refuted`, `C76_overlap_refuted`, `C76_copySlice_refuted`, `C76_mesh_refuted`, `C83_read`, `C83_read_sound`, `C83_read_failed`, `C83_short_refuted`, `C83_write`, `C83_roundtrip`, `C83_extend`, `C86_roundtrip`, `C86_step_not_read`, `C86_mesh_refuted`, `C86_nan_refuted`.

Using `ClassicalDedekindReals.sig_forall_dec`, `FunctionalExtensionality.functional_extensionality_dep`:
`r1d_pivots_sufficient`, `r1d_spatialAverage_is_average`, `r1d_Q_independent_of_propagator`, `tridiagonal_solve_correct`, `tridiagonal_multiply_correct`, `tridiagonal_solve_multiply_inverse`, `tridiagonal_symmetric_overload`, `tridiagonal_dominant_pivots`, `rpc_discretization`, `r1d_discretization_partial`, `r1d_discretization_refuted`, `r1d_discretization_short_blocks`, `species_setters`, `species_read_phi_in_range_refuted`, `kgrid_weighted_sum`, `kgrid_weighted_sum_coded`, `kgrid_weighted_sum_refuted`, `shiftToMinimum_image`, `shiftToMinimum_minimal_partial`, `shiftToMinimum_exact`, `shiftToMinimum_1d`, `shiftToMinimum_orthogonal`, `interaction_xi_recovered`, `interaction_roundtrip`, `interaction_c_sums_to_one`, `interaction_fields_recovered`, `setChi_current`, `setChi_value`, `singular_chi_detected_partial`, `singular_chi_detected_refuted`, `residual_basis_zero_iff`, `residual_basis_zero_iff_canonical`, `residual_grid_zero_iff`, `residual_grid_zero_iff_canonical`, `residual_r1d_zero_iff`, `residual_nr_zero_iff`, `residual_nr_zero_iff_canonical`, `stress_residual_zero_iff`, `ambd_projector`, `binary_relax_zero_iff_partial`, `binary_relax_zero_iff_refuted`, `binary_relax_direction`, `C40_sweep_steps`, `C40_ends_at_one_refuted`, `C41_terminates`, `C41_negative_steps_refuted`, `C42_extrapolation_exact`, `C42_cell_extrapolation`, `C42_sweep_extrapolation`, `C43_cell_transferred_partial`, `C43_partly_flexible_refuted`, `C48_displacement`, `C48_components_complete`, `C48_compressors`, `C49_guards`, `wfields_any_order_refuted`, `failed_setBasis_consistent_refuted`, `dishonest_setRGrid_consistent_refuted`, `C52_error`, `C52_roundtrip`, `C52_component`, `C56_composition`, `C56_polymer`, `C56_polymer_bead`, `C56_solvent`, `reduceLoop_ok`, `C45_parameters`, `C45_normalVecId_refuted`, `C65_value`, `C65_shift`, `C63_others`, `C71_sum_covered`, `C71_sum`, `C71_innerProduct`, `C71_max`, `C71_min`, `C71_maxAbs`, `C71_minAbs`, `C71_minAbs_small`, `C71_sum_refuted`, `C73_images`, `C79_hamiltonian`, `C80_shell_partial`, `C80_tolerance_refuted`, `C81_complex`, `C81_complex_quotient`, `C81_complex_product`, `C81_complex_alias_refuted`, `C81_overlap_refuted`, `C81_reduce`, `C81_reduce_nan`, `C81_reduce_nan_refuted`, `C81_sum`, `C81_inner`, `C82_parameters`, `C82_ramp_end`, `C82_between`, `C82_setup`, `C82_total`, `C82_twice_refuted`, `C82_chi_refuted`, `C82_negative_refuted`, `C83_remesh`, `C83_remesh_keeps`, `C83_remesh_same`, `C83_remesh_read`, `C83_dimension_refuted`, `C84_free_energy`, `C84_shift`, `C85_success`, `C85_last_point`, `C85_descent`, `C85_solution`, `C85_newton`, `C85_nan_refuted`.

Using `ClassicalDedekindReals.sig_forall_dec`, `ClassicalDedekindReals.sig_not_dec`, `FunctionalExtensionality.functional_extensionality_dep`:
`fft_roundtrip`, `rpc_Q_independent_of_propagator`, `interaction_fHelmholtz_gradient`, `interaction_dWdC`, `C38_inner_product_matrix`, `C38_trial_minimises_residual`, `C39_solve_result`, `C46_unaccepted_restores`, `C46_sequences`, `C46_failed_step_restores`, `C47_proposal`, `C47_weight`, `C47_inverse`, `C47_detailed_balance`, `C47_move`, `C48_eigenvectors`, `C48_accepted_moves`, `C48_brownian_steps`, `C49_mc_without_ramp`, `C49_bd_without_ramp`, `C53_no_recovery`, `C53_success`, `C53_monotone`, `C53_gauge`, `C53_refuted`, `C54_eb_small_refuted`, `C55_field`, `C55_fields`, `C55_complex_field`, `C55_complex_fields`, `C55_begin`, `C55_symmetric`, `C55_sizes`, `C55_nan`, `C55_unequal_sizes_refuted`, `C55_basis_refuted`, `C55_basis_mean_refuted`, `C25_fourier`, `C25_roundtrip`, `C25_inverse`, `C25_makeBasis`, `C25_star_order`, `valid_good`, `valid_conjugate`, `makeBasis_good`, `C59_complete`, `C59_stored`, `C59_refuted`, `C28_pairs_partial`, `C28_refuted`, `C28_cancelled`, `C28_roundtrip`, `C28_reversed`, `valid_named`, `valid_indexed`, `C61_excess`, `C63_external`, `C74_kernel`, `C74_slices`, `C74_whole`, `C74_misc`, `C74_many`, `C74_offset_refuted`, `C74_many_refuted`, `C74_in_place_refuted`, `C74_pair_refuted`, `C74_overlap_refuted`, `C74_launch_refuted`, `C75_stress_undefined`, `C75_solve_head_refuted`, `C77_zero`, `C79_simulation`, `C80_max`, `C80_max_defined`, `C80_structure_value`, `C81_complex_abs`, `C81_vector`.

Using `ClassicalDedekindReals.sig_forall_dec`, `Classical_Prop.classic`, `FunctionalExtensionality.functional_extensionality_dep`:
`C80_prefactor`, `C80_prefactor_again`, `C80_structure`, `C80_batches`.

Using `ClassicalDedekindReals.sig_forall_dec`, `ClassicalDedekindReals.sig_not_dec`, `Classical_Prop.classic`, `FunctionalExtensionality.functional_extensionality_dep`:
`r1d_block_mass_conserved`, `species_calls_keep_ensemble_and_range`, `species_setQ_consistent`, `rpc_solvent_mean_concentration`, `r1d_solvent_mean_concentration`, `rpc_thread_block_mass`, `rpc_block_mass_conserved`, `rpc_bead_block_mass`, `rpc_uniform_fields`, `unit_cell_bases_dual`, `unit_cell_volume_formula`, `drBasis_correct_partial`, `drBasis_correct_refuted`, `oblique_drBasis_misplaced`, `monoclinic_drBasis_negated`, `rhombohedral_drBasis_negated`, `dksq_correct_partial`, `angle_dksq_negated`, `dksq_correct_refuted`, `replicate_multiplies_vectors`, `replicate_succeeds_iff`, `full_length_parameters`, `full_angle_parameters_partial`, `full_angle_parameters_refuted`, `unit_cell_always_current`, `unit_cell_always_current_refuted`, `shiftToMinimum_minimal_refuted`, `shiftToMinimum_stable_refuted`, `C46_cc_refuted`, `C49_ramp_refuted`, `C49_gradient`, `C54_dt_large`, `C54_et_large`, `C54_db_large`, `C54_eb_large`, `C54_et_small`, `C54_dt_small_partial`, `C54_bead_small_partial`, `C54_dt_small_refuted`, `C54_db_small_refuted`, `C54_dt_jump_refuted`, `C56_mu`, `C56_free_energy`, `C56_pressure`, `C56_mu_derivative`, `C56_jacobian`, `C56_computePhi`, `C56_inverse`, `C56_absent_refuted`, `C26_header`, `C26_file`, `C26_file_rejected`, `C27_replicate_rejected`, `C27_replicate_file`, `C27_expand`, `C27_expand_rejected`, `C27_expand_nonpositive_refuted`, `C45_partial`, `C45_orthogonal_accepted`, `C45_hexagonal`, `C45_refuted`, `C45_normalVecId_undefined`, `C45_equal_thickness`, `C45_unnoticed`, `C60_generated`, `C60_refuted`, `C60_partial`, `C61_film`, `C62_film_symmetric`, `C64_orthogonal_partial`, `C64_refuted`, `C65_response`, `C65_solvents`, `C65_homogeneous`, `C63_mask`, `C63_stress`, `C63_modified`, `C63_mean_refuted`, `C66_polymer`, `C66_polymers`, `C66_stress`, `C66_code`, `C66_code_exact`, `C66_polymer_refuted`, `C66_lattice`, `C67_reference_unique`, `C67_propagators_converge`, `C67_partition_function_converges`, `C67_density_converges`, `C68_fresh`, `C68_available`, `C68_derivatives`, `C68_even`, `C68_search_succeeds`, `C68_even_refuted`, `C68_images_depend_on_angle`, `C69_orbits`, `C69_cancelled`, `C69_coefficients`, `C69_span`, `C69_fields`, `built4_built`, `makeBasis_runs4`, `C70_polymer`, `C70_stress`, `C70_code`, `C70_code_exact`, `C70_refuted`, `C73_fresh`, `C73_same`, `C73_near`, `C73_same_refuted`, `C73_lockstep_refuted`, `C73_launch_refuted`, `C75_compute`, `C75_mass`, `C75_stress`, `C75_bead_tail_refuted`, `C77_exact`, `C77_bound`, `C77_positive`, `C77_pairs_exist`, `C77_exact_refuted`, `C78_response`, `C78_step`, `C78_newton_partial`, `C79_chi_partial`, `C79_concentration`, `C79_perturbation`, `C79_chi_diagonal_refuted`, `C79_chi_perturbed_refuted`, `C80_fourth_bounds`, `C80_fourth_partial`, `C80_fourth_1d`, `C80_fourth_refuted`, `C80_shell_refuted`, `C84_uniform`, `C84_mode0`, `C84_mode12`, `C84_no_excess`, `C84_solvents`, `C84_solvents_refuted`, `C85_solvent_refuted`.
