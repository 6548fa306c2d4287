# Formal model of pscfpp in Rocq/Coq 8.16.1

The source is `/repo` (dmorse/pscfpp at the pinned commit; C++, read as text only,
never built or run).  The model and its proofs are in `rocq/theories`.
`properties.jsonl` lists the properties, `MANIFEST.json` maps each of them to
theorems, `seeded/LOG.jsonl` records the seeded-bug trials.  This file is put
together by `tools/design.py` from `tools/design_head.md`, the manifest and the
output of `Print Assumptions`.

## Layout

Each area has up to four files:

* `<Area>.v`: the model, function by function; every definition cites the file
  and lines of `/repo` it models and says what was simplified;
* `<Area>Spec.v`: independent specification, where it is not short enough to stand
  in the file of the theorems;
* `<Area>Proofs.v`: lemmas;
* `Props<Area>.v`: the final theorems, concrete cases that meet their hypotheses
  (`Example`), and `Print Assumptions`.

## Conventions

* Integer code (`int`, `IntVec`) is modelled with `Z` (or `nat` where the value
  is an array index), without overflow.  C++ division and remainder truncate,
  so `Z.quot`/`Z.rem` are used where the operands can be negative.
* Floating point: numerical kernels are modelled over the reals `R` of the
  standard library, in exact arithmetic.  Where a property depends on non-finite
  values, numbers are `option R` (`None` is not finite) or IEEE doubles
  (`SpecFloat`, which computes and needs no axiom).
* `UTIL_CHECK`/`UTIL_THROW` give the outcome `Throw`; `UTIL_ASSERT` is inactive in
  production builds and not modelled.  Undefined behaviour (out-of-range access,
  null dereference, unset memory) is the distinct outcome `UB`.  Loops whose
  termination is in question carry fuel; running out of it is the distinct outcome
  `NoFuel`, and theorems about them say for which fuel it does not occur.
* `src/util` and `src/test` are git submodules that are absent from the pinned
  tree; containers are modelled by lists or functions with the behaviour their
  uses rely on (`DArray::allocate` raises an error when already allocated).
* If the property as stated is false of the code, a theorem with suffix
  `_refuted` exhibits a concrete input, and the part that holds is proved under
  the explicit condition under which it holds (`_partial`, or a guard).  The
  manifest status is then `partial`.

## Trusted base

1. The kernel of Coq 8.16.1 (and `coqchk`, which the gate runs).
2. The axioms that `Print Assumptions` lists.  There are four, all from the
   standard library, and no axiom of this development:
   * `ClassicalDedekindReals.sig_forall_dec` and
     `ClassicalDedekindReals.sig_not_dec` (construction of the reals),
   * `FunctionalExtensionality.functional_extensionality_dep`,
   * `Classical_Prop.classic` (through Coquelicot and parts of the library of
     the reals).

   The last section lists, for each theorem of the manifest, which of them it uses.
3. That the definitions in the model files say what the cited lines of `/repo` do.
   This is a matter of reading; the simplifications are stated with the definitions.
4. Libraries called by the code are given by their specification, as hypotheses of
   the theorems or parameters of the model, never as axioms: FFTW (its transforms
   are defined by their sums, `Fft.v`), the LU solver and the symmetric eigensolver
   of GSL, `std::sort`, random-number generators, the formatting of numbers in
   files.

## What is modelled

| code | model |
|------|-------|
| `pscf/mesh` Mesh, MeshIterator, MeshIteratorFortran | `Mesh.v` |
| `pscf/chem` PolymerSpecies (graph, plan, paths), Vertex, VertexIterator | `Polymer.v` |
| `pscf/chem` Species, SolventSpecies; `rpc` Solvent | `Species.v` |
| `pscf/chem` PolymerModel | `PolymerModel.v` |
| `pscf/chem` Debye | `Debye.v` |
| `pscf/solvers` PropagatorTmpl, PolymerTmpl | `Solve.v` |
| `pscf/math` TridiagonalSolver | `Tridiag.v` |
| `pscf/math` FieldComparison, `prdc/cpu` CFieldComparison | `Compare.v` |
| `pscf/inter` Interaction, `pscf/iterator` AmbdInteraction, residuals of all SCFT iterators | `Interaction.v` |
| `pscf/iterator` AmIteratorTmpl, AmIteratorDArray | `Am.v` |
| `pscf/sweep` SweepTmpl; `rpc/scft/sweep` extrapolation | `Sweep.v` |
| `pscf/floryHuggins` Mixture, Molecule | `FloryHuggins.v` |
| `pscf/environment`, `prdc/environment` base classes | `Environment.v` |
| `prdc/environment`, `rpc/environment` film generators | `Film.v`, `FilmStress.v` |
| `prdc/crystal` UnitCell, replicateUnitCell, paramIdConversions | `UnitCell.v` |
| `prdc/crystal` SpaceSymmetry, SymmetryGroup, SpaceGroup | `Symmetry.v` |
| `prdc/crystal` shiftToMinimum | `ShiftMin.v` |
| `prdc/crystal` Basis (construction, validity, use) | `Basis.v`, `MakeBasis.v` |
| `prdc/crystal` hasImplicitInverse; `prdc/cpu` FFT, WaveList (dKSq) | `Fft.v`, `Stress.v` |
| `prdc/cpu` WaveList (caching; real fields), `prdc/crystal` hasVariableAngle | `WaveList.v` |
| `pscf/cuda` ThreadArray; `prdc/cuda` Reduce (kernels and wrappers, thread by thread) | `GpuThreads.v`, `GpuReduce.v` |
| `pscf/cuda` ThreadMesh; thread-to-point map of the `rpg` film kernels | `GpuMesh.v` |
| `prdc/cuda` WaveList (real fields; kernels thread by thread, caching) | `GpuGrid.v`, `GpuWave.v` |
| `prdc/cuda` VecOp, VecOpMisc, kernels of `rpg/solvers` Block (statement by statement, on words of memory) | `GpuKernel.v`, `VecOp.v` |
| `rpg/solvers` Block, Propagator, Polymer; `prdc/cuda` FFT, FFTBatched (wrappers; cuFFT by its definition) | `GpuBlock.v`, `GpuPolymer.v` |
| `pscf/cuda/DeviceArray.h`, `HostDArray.h` (transfers), `prdc/cuda/RField.tpp`, arrays of `rpg` Propagator | `DevArray.v` |
| `pscf/chem/EdgeIterator.cpp`, `rpc/fts/compressor/IntraCorrelation.tpp` (and the same code in `rpg`) | `Intra.v` |
| `rpc/fts/analyzer/` ChiDerivative, ConcentrationDerivative, PerturbationDerivative, HamiltonianAnalyzer (and the same code in `rpg`) | `Deriv.v` |
| `rpc/fts/analyzer/` FourthOrderParameter, MaxOrderParameter, BinaryStructureFactorGrid (and the same code in `rpg`) | `OrderParam.v` |
| `prdc/cpu/` complex.h, VecOp.cpp, Reduce.cpp | `HostOps.v` |
| `rpc/scft/sweep/` LinearSweep, SweepParameter (values), `rpc/fts/ramp/` LinearRamp, RampParameter (values), `prdc/solvers/MixtureModifierPrdc.tpp` | `LinearPath.v` |
| `prdc/solvers/MixturePrdc.tpp` compute, `rpc/fts/compressor/LrCompressor.tpp` correction of the fields | `Response.v` |
| `prdc/cpu` FieldBasisConverter | `BasisConv.v` |
| `prdc/field` fieldIoUtil, unitCellHeader, FieldIoTmpl (headers); `rpc/field` FieldIo | `FieldIo.v`, `Basis.v` |
| `prdc/field` WFieldsTmpl, MaskTmpl | `FieldStore.v` |
| `prdc/system` ScftThermoTmpl | `Thermo.v` |
| `prdc/system` SystemTmpl: operations on fields, cell, c fields, stress | `System.v` |
| command loops of the `rpc` and `r1d` systems | `Commands.v` |
| `rpc/solvers` Block, Propagator, Polymer; `prdc/solvers` MixturePrdc (stress) | `Rpc.v`, `Stress.v` |
| `r1d` Domain, Block, Propagator, Polymer | `R1d.v` |
| `r1d/misc` FieldIo: read, write, remesh, extend | `R1dFieldIo.v` |
| `r1d` System::computeFreeEnergy, `r1d/misc` HomogeneousComparison | `R1dThermo.v` |
| `rpc/fts/analyzer` TrajectoryWriter, `rpc/fts/trajectory` RGridTrajectoryReader (frames) | `Trajectory.v` |
| `r1d/iterator` NrIterator | `NrIterator.v` |
| `r1d/iterator` BinaryRelaxIterator | `BinaryRelax.v` |
| `rpc/fts` Simulator, McMove and subclasses, BdStep and subclasses, compressor updates, EinsteinCrystal | `Fts.v` |
| `rpc/fts/ramp`, `rpc/scft/sweep`, `r1d/sweep` parameter I/O | `ParamIo.v` |
| `rpc/fts/analyzer` Analyzer, AnalyzerManager, simulation loops | `Analyzers.v` |

Not modelled: CUDA code (`rpg`, `prdc/cuda`, `pscf/cuda`) other than that listed, complex Langevin code
(`cpc`), the FFTW and GSL libraries, rounding errors of floating point, integer
overflow, memory layout of field slices, timers, log output, the text of most
parameter files (ParamComposite), the individual analyzers' output, `src/tools`.

## Disagreements between properties and code

The following claims of the properties are false of the modelled code.  Each is
the subject of a theorem with suffix `_refuted` (or an exact characterisation).

* Mesh (C05): `serialize` archives `dimensions_[0]` D times, and loading restores
  neither offsets nor size.
* Polymer graphs (C08): a cyclic graph makes `makePlan` run for ever; ids out of
  range are out-of-bounds accesses.
* r1d field files (C83) that end within their last row are accepted, old values stay; `remesh` to one point writes two rows, `extend` by a negative number more rows than its header says.
* r1d `HomogeneousComparison` (C84) with solvents reads volume fractions and chemical potentials that were never set, and its output reads polymers past the last one.
* NrIterator (C85) takes the largest residual with a comparison that is false for NaN, so that concentrations that are not numbers are reported as converged; and it regards a system as canonical if all polymers are closed, although solvents may be open, and then does not constrain the last grid point.
* RGridTrajectoryReader (C86) does not compare the mesh dimensions of a frame with those of the system, and cannot read a value that is not finite.
* r1d blocks (C14) shorter than half a step get `ns = 1` and divide by zero.
* Species (C15): `phi` is read without a range check.
* Symmetry group (C17): `add` of a symmetry that was not normalised inserts a
  duplicate.  Space group (C18): the mesh check skips the first axis; C69 has to assume
  what the check should have established.
* Basis (C69): `makeStars` reduces a difference of phases (in radians) modulo 1 instead
  of modulo 2 pi, and compares `wave.sqNorm` with itself.  Neither changes the result for
  a group: the test on the root wave already finds every cancelled star.
* Unit cell (C20): the derivatives for the oblique lattice are in the wrong place;
  those with respect to the monoclinic and rhombohedral angle have the wrong sign.
  C22: angle ids of triclinic cells.  C58: `serialize` leaves old basis vectors.
* `shiftToMinimum` (C23): rounding tolerance accumulates over candidates, and the
  result is not a fixed point for vectors far outside the first cell.
* WaveList (C68): on strongly anisotropic meshes of hexagonal cells the window of +-2
  shifts misses the shortest image, and inverse waves get different `|k|^2`.
* `hasImplicitInverse` (C24) misses the waves with last index `n - n/2 - 1`; the
  stress (C66, C70) therefore counts these waves once instead of twice.
* Interaction (C36): a zero chi matrix is not detected as singular.
* Anderson mixing (C38): stale coefficients in the first step of a continuation;
  C39: an exception escapes `solve` in double precision.
* Sweep: C40 ten million steps overshoot; C41 `ns <= 0` accepted, may not end;
  C43 a partly flexible cell is not transferred.
* Field-theoretic simulation: C46 `cc_` stale after a rejected force-bias move; C49
  stale Hamiltonian with a ramp; C50 `v_monomer` and r1d `cell_param` cannot be read
  back; C51 simulation without analyzers, and analysis with a base interval, throw.
* Field containers and system: C29 symmetric data refused after asymmetric data, and
  inconsistent data after an exception; C30 `clear` and throwing setters do not
  invalidate the concentrations; C31 parameter changes invalidate nothing; C32
  stale, mixed or unset stress.
* Commands (C33): a last command without arguments and without trailing white space
  is lost.
* BinaryRelaxIterator (C53) never recovers from a step that increases the error.
* Order parameters (C80): where two minimum images of a wavevector are equally short, the inverse of a minimum image need not be a minimum image, so `FourthOrderParameter` counts both members of such a pair fully (`C80_fourth_refuted`, 3 x 2 points); the result is never too small and at most a factor 2 too large before the root (`C80_fourth_bounds`). `MaxOrderParameter` reads `psi[1]` of a grid of one point. `BinaryStructureFactorGrid` averages over the half grid without the multiplicity of its points (`C80_shell_refuted`), averages means within the tolerance without weights (`C80_tolerance_refuted`), and throws in the second simulation (`C80_second_setup_refuted`).
* Host arithmetic (C81): `mul`, `square` and `div` of two `fftw_complex` overwrite the real part before it is used for the imaginary part, so they are wrong in place (`C81_complex_alias_refuted`); the other functions may be used in place. `VecOp` functions may be used in place, not with overlapping arrays (`C81_overlap_refuted`). `Reduce::max`, `min`, `maxAbs`, `minAbs` return NaN only if the first element is NaN and skip any other NaN (`C81_reduce_nan_refuted`).
* Linear sweeps and ramps (C82): a sweep adds its steps in double precision and stops only beyond 1.0000001, so its last path variable may exceed 1 (for example with 20 steps); a sweep that takes a volume fraction to 0 or 1 then throws at its last step although the end of the line is valid (`C82_end_refuted`, on IEEE doubles). The check that the changes of volume fractions add up to zero accepts a list that names one volume fraction twice; only the last entry takes effect, and the sum changes (`C82_twice_refuted`); the same holds for chi(i,j) and chi(j,i) (`C82_chi_refuted`). Negative indices are not refused (`C82_negative_refuted`).
* ChiDerivative (C79): the formula divides by chi(0,1) and so assumes that chi has no diagonal elements, although the parameter file may give them (`C79_chi_diagonal_refuted`); with a perturbation it is the derivative of the unperturbed Hamiltonian (`C79_chi_perturbed_refuted`).
* Debye (C54): small-argument branches are of first order only, one is discontinuous. The correlation function of C77 inherits this error (at most 2e-5 of its k = 0 value, `C77_bound`, `C77_exact_refuted`).
* Field comparison (C55): fields of different sizes; component 0 of a basis ignored.
* Homogeneous mixtures (C56): valid compositions refused in doubles; NaN for absent
  species.
* Field files: C27 nonpositive new dimensions accepted; C28 mismatched pairs of stars
  accepted (`=` instead of `==`); C59 asymmetric fields pass the symmetry test.
* Environments: C44 external-first order always throws; C45 obtuse angles accepted,
  `normalVecId = D` accepted; C60 sweeping wall parameters has no effect; C63 mask
  stress uses `T/L^2` for the change of the mean of the mask; C64 triclinic films.
* GPU reductions (C71): the number of blocks is computed from `(float)n`, so that with
  more than 2^24 elements the last ones can be dropped; `minAbs` reads outside arrays
  shorter than half a block; the unrolled last warp needs lockstep execution, which
  devices of compute capability 7.0 (the default NVARCH) do not provide; a NaN is lost
  in `maxAbs`, which defeats the test for NaN in the `rpg` iterator.
* ThreadMesh (C72): a stored configuration is reused for a mesh of lower dimension with
  the same first dimension, after an exception that left BLOCK_DIMS unset (the launch is
  then empty), and after `setThreadsPerBlock` changed the default; `setThreadsPerBlock`
  accepts more threads than the device supports, and the failed launch is not noticed.
* GPU WaveList (C73): its window of shifts has 32 or 128 members, the CPU's 25 or 125, so
  that the two can choose images of different length on elongated hexagonal meshes; the
  2D reduction needs lockstep execution; `kSize*128` overflows from 2^24 waves on;
  `minImages_h` uses an array that is never allocated and strides by D instead of kSize;
  a refused launch leaves junk marked as available.
* Element-wise operations (C74): a negative first index of a slice is not refused;
  `addVMany` and `mulVMany` of more than two vectors do not look at the capacity of the
  output or of the other vectors; complex `mulVV`, `mulVS`, `expV` cannot be used in
  place, which is not documented; the wrappers in `rpg` Block.tpp do not check whether
  the launch was refused.
* Polymer solver on the GPU (C75), bead model: where the CPU copies the last bead to the
  slice of a tail that ends the chain, `Propagator::solve()` copies a slice onto itself, so
  that slice stays uninitialised, and the batched transforms of `computeStress` read it;
  in `solve(head)` the condition is inverted, so the slice of a tail that does not end the
  chain, which `tail()` returns, is not computed.
* Device arrays (C76): the copy constructor calls `allocate()` before `dataPtr_` and
  `ownerPtr_` have values; if an owner is deallocated the destructor of a slice throws, which
  ends the program; if an owner is destroyed first its slices hold a dangling pointer;
  assignment between overlapping slices and `copySlice` with a negative index are not
  refused; `RField::allocate` stores the new dimensions before it throws.
