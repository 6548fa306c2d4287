{"id": "C01", "title": "Grid rank and grid position are inverse bijections", "statement": "For a mesh with positive dimensions, rank() maps the in-range grid positions one-to-one onto 0..size-1 and position() is its inverse, in any number of dimensions; size() is the product of the dimensions.", "quantifier": "all dimensions D and all positive dimension vectors; all positions in the mesh, all ranks in 0..size-1", "why_tests_cant": "unit tests check a handful of positions on two or three fixed meshes; the claim ranges over all mesh shapes", "anchors": ["src/pscf/mesh/Mesh.tpp: Mesh<D>::setDimensions, rank, position", "src/pscf/mesh/Mesh.h"]}
{"id": "C02", "title": "A mesh iterator visits every grid point exactly once, in rank order", "statement": "A begin()/atEnd()/++ loop over a MeshIterator terminates after exactly size() iterations; the n-th visited point has rank() == n and position() equal to the mesh position of rank n.", "quantifier": "all dimensions D, all positive dimension vectors", "why_tests_cant": "loop termination and exact coverage for every shape is an induction, not a sample", "anchors": ["src/pscf/mesh/MeshIterator.tpp: begin, operator++, increment", "src/pscf/mesh/MeshIterator.h: atEnd"]}
{"id": "C03", "title": "The Fortran-order iterator visits every grid point exactly once, first index fastest, with the right C-order rank", "statement": "A begin()/atEnd()/++ loop over a MeshIteratorFortran terminates after exactly size() iterations; the n-th visited point is the n-th position in first-index-fastest order and its rank() equals the Mesh rank of that position, so every rank is visited exactly once.", "quantifier": "all dimensions D, all positive dimension vectors", "why_tests_cant": "r-grid field files are read and written with this iterator; a shape for which one rank is skipped or repeated corrupts the file silently", "anchors": ["src/pscf/mesh/MeshIteratorFortran.tpp: setDimensions, begin, operator++", "src/pscf/mesh/MeshIteratorFortran.h"]}
{"id": "C04", "title": "Shifting a coordinate wraps it into the primary cell and reports the exact shift", "statement": "shift(coordinate, i) leaves coordinate in [0, dimension(i)) and returns s with original = new + s*dimension(i); the vector version does this componentwise; a position is in the mesh iff all its shifts are zero.", "quantifier": "all integers (negative included), all positive dimensions", "why_tests_cant": "C++ integer division truncates towards zero, so correctness for negative coordinates depends on a case split that tests sample at a few points", "anchors": ["src/pscf/mesh/Mesh.tpp: shift", "src/pscf/mesh/Mesh.h: isInMesh"]}
{"id": "C05", "title": "Serializing a mesh and loading it back reproduces the mesh", "statement": "Saving a Mesh to an archive and loading it into another Mesh gives a mesh with the same dimensions, size, rank and position functions.", "quantifier": "all meshes", "why_tests_cant": "tests serialize one mesh or none; equal dimensions hide the defect", "anchors": ["src/pscf/mesh/Mesh.h: Mesh<D>::serialize"]}
{"id": "C06", "title": "The propagator plan of an acyclic polymer is a valid dependency order", "statement": "For every connected acyclic branched polymer, reading its block list terminates and produces a plan in which each of the 2*nBlock propagators occurs exactly once and each propagator occurs after every propagator that feeds its head vertex from another block.", "quantifier": "all trees: any number of vertices, any numbering of blocks and vertices, any orientation of blocks", "why_tests_cant": "tests use a few small architectures (linear, star, comb); the claim ranges over all trees and numberings", "anchors": ["src/pscf/chem/PolymerSpecies.cpp: makePlan, readParameters", "src/pscf/chem/Vertex.cpp: addEdge"]}
{"id": "C07", "title": "The stored signposts route every vertex to every other vertex", "statement": "For every connected acyclic branched polymer, path(is, it) names a block and direction leaving is; repeatedly following the signpost from is reaches it, visiting no vertex twice.", "quantifier": "all trees and all ordered pairs of distinct vertices", "why_tests_cant": "tests check a few pairs on small graphs", "anchors": ["src/pscf/chem/PolymerSpecies.cpp: makePaths", "src/pscf/chem/VertexIterator.cpp", "src/pscf/chem/EdgeIterator.cpp"]}
{"id": "C08", "title": "An invalid branched architecture is rejected", "statement": "If the block list read for a branched polymer is not a connected acyclic graph on nBlock+1 vertices, reading it raises an error; it never hangs and never reads outside the vertex array.", "quantifier": "all lists of vertex pairs", "why_tests_cant": "a test of a bad file shows one outcome; termination on every bad list is a universal claim", "anchors": ["src/pscf/chem/PolymerSpecies.cpp: readParameters, makePlan, makePaths, isValid"]}
{"id": "C09", "title": "Each block's average concentration is its exact share of the species volume fraction (continuous chain, periodic solver)", "statement": "After compute(), in exact arithmetic, the mesh average of the concentration of each block equals phi*(block length)/(polymer length), whatever the fields, the unit cell, the mesh, the contour step and the architecture; the sum over blocks equals phi.", "quantifier": "all acyclic architectures, all block lengths, all real w fields, all meshes, all contour discretizations", "why_tests_cant": "tests compare one or two fields to a tolerance; the identity is a consequence of the symmetry of the discretized step and of the plan, for all inputs", "anchors": ["src/rpc/solvers/Block.tpp: stepThread, computeConcentrationThread", "src/rpc/solvers/Propagator.tpp: computeHead, solve, computeQ", "src/rpc/solvers/Polymer.tpp: compute", "src/pscf/solvers/PolymerTmpl.tpp: solve"]}
{"id": "C10", "title": "The molecular partition function does not depend on which propagator is used to evaluate it", "statement": "After solve(), the average of head(propagator)*tail(partner) has the same value for every block and either direction, and the same value is obtained from the product of the two propagators at any interior contour point of any block.", "quantifier": "all acyclic architectures, all fields, all discretizations", "why_tests_cant": "the solver evaluates it for block 0 only; tests compare the others numerically on a few examples", "anchors": ["src/rpc/solvers/Propagator.tpp: computeQ", "src/pscf/solvers/PolymerTmpl.tpp: solve"]}
{"id": "C11", "title": "Bead model: each block holds exactly its share of beads", "statement": "For the discrete bead model, after compute(), the mesh average of the concentration of each block equals phi*nBead(block)/nBead(polymer).", "quantifier": "all acyclic architectures, all bead numbers, all fields, all meshes", "why_tests_cant": "the interplay of half bonds at vertices and full bonds inside blocks has to be right for every architecture", "anchors": ["src/rpc/solvers/Block.tpp: stepBondBead, stepHalfBondBead, stepFieldBead, computeConcentrationBead", "src/rpc/solvers/Propagator.tpp: solve, computeQ"]}
{"id": "C12", "title": "One-dimensional solver conserves monomers exactly in planar, cylindrical and spherical coordinates", "statement": "After compute() of the one-dimensional solver, in exact arithmetic, the Domain::spatialAverage of each block concentration equals phi*(block length)/(polymer length), for planar slabs, discs, cylindrical shells, spheres and spherical shells.", "quantifier": "all geometries, all grids with at least two points, all fields for which no LU pivot vanishes, all architectures", "why_tests_cant": "needs the finite-difference operator to be exactly self-adjoint for the quadrature weights, including the special first and last rows", "anchors": ["src/r1d/solvers/Block.cpp: setupSolver, step, computeConcentration", "src/r1d/domain/Domain.cpp: spatialAverage, innerProduct", "src/r1d/solvers/Polymer.cpp: compute"]}
{"id": "C13", "title": "The tridiagonal solver solves the system it was given", "statement": "After computeLU(d,u,l), solve(b,x) returns x with A x = b for the tridiagonal matrix A with that diagonal and those off-diagonals, whenever no pivot is zero; multiply(b,x) returns A b; multiply and solve are mutually inverse.", "quantifier": "all sizes n >= 1, all coefficients with nonzero pivots, all right-hand sides", "why_tests_cant": "tests use two or three matrices", "anchors": ["src/pscf/math/TridiagonalSolver.cpp: computeLU, solve, multiply"]}
{"id": "C14", "title": "Contour discretization is well formed for every block length", "statement": "For every positive block length L and target step ds > 0, the number of contour points is odd and at least 3, and (ns-1)*ds_actual = L; after setLength the same holds for the new length.", "quantifier": "all L > 0, all ds > 0", "why_tests_cant": "short blocks relative to ds are an untested corner; sweeps change lengths during a run", "anchors": ["src/rpc/solvers/Block.tpp: allocate, setLength", "src/r1d/solvers/Block.cpp: setDiscretization, setLength"]}
{"id": "C15", "title": "Species ensembles keep phi, mu and q consistent", "statement": "After any sequence of setPhi/setMu/setQ calls that does not raise an error, the last setQ leaves mu = log(phi/q) and hence phi = exp(mu)*q; a closed species never has its phi changed by setQ and stays in [0,1]; an open species never has its mu changed by setQ; setting the variable of the other ensemble raises an error and changes nothing. For a solvent the mean concentration equals phi.", "quantifier": "all call sequences, all values", "why_tests_cant": "a property of all histories", "anchors": ["src/pscf/chem/Species.cpp: setPhi, setMu, setQ", "src/rpc/solvers/Solvent.tpp: compute"]}
{"id": "C16", "title": "Space symmetries compose and invert as affine maps of the torus", "statement": "The product of two symmetries acts on positions as the composition of their actions modulo lattice vectors; inverse() is a two-sided inverse; normalized translations lie in [0,1); shifting the origin conjugates the action.", "quantifier": "all integer rotation matrices with determinant +1 or -1, all rational translations, dimensions 1-3", "why_tests_cant": "algebraic laws over all symmetries", "anchors": ["src/prdc/crystal/SpaceSymmetry.tpp", "src/prdc/crystal/SpaceSymmetry.cpp: inverseRotation, determinant", "src/prdc/crystal/SpaceSymmetry.h: operator*"]}
{"id": "C17", "title": "makeCompleteGroup returns the group generated by the input symmetries", "statement": "When makeCompleteGroup returns, the set contains the identity and all the elements it started with, is closed under product and inverse, contains no element twice, and every element is a product of starting elements and their inverses.", "quantifier": "all finite starting sets for which it returns", "why_tests_cant": "closure is a fixpoint property; tests check a few crystallographic groups", "anchors": ["src/prdc/crystal/SymmetryGroup.tpp: add, makeCompleteGroup, isValid"]}
{"id": "C18", "title": "The mesh check of a space group accepts only meshes that the group maps to themselves", "statement": "If checkMeshDimensions does not raise an error, every symmetry of the group maps every mesh point to a mesh point: each translation denominator divides the mesh dimension of its direction, and directions mixed by a rotation have equal dimensions.", "quantifier": "all space groups, all mesh dimensions", "why_tests_cant": "tests use groups and meshes that are compatible; the failing case needs a translation along the first axis", "anchors": ["src/prdc/crystal/SpaceGroup.tpp: checkMeshDimensions"]}
{"id": "C19", "title": "Bravais and reciprocal basis vectors are dual in every lattice system", "statement": "After a lattice and its parameters are set, rBasis(i).kBasis(j) = 2*pi*delta(i,j), for each of the 1 + 5 + 7 lattice systems, whenever the parameters describe a nondegenerate cell.", "quantifier": "all lattice systems in 1, 2 and 3 dimensions, all nondegenerate real parameters", "why_tests_cant": "trigonometric identities over all angles; tests evaluate one parameter set per lattice system", "anchors": ["src/prdc/crystal/UnitCell1.cpp", "src/prdc/crystal/UnitCell2.cpp: setBasis", "src/prdc/crystal/UnitCell3.cpp: setBasis", "src/prdc/crystal/UnitCellBase.tpp"]}
{"id": "C20", "title": "The stored derivatives of the lattice vectors are the true derivatives", "statement": "drBasis(k,i,j) equals the partial derivative of component j of Bravais vector i with respect to lattice parameter k, hence the stress used by flexible-cell SCFT is the derivative with respect to that parameter, in every lattice system.", "quantifier": "all lattice systems in 1, 2 and 3 dimensions, all nondegenerate parameters, all parameter indices", "why_tests_cant": "tests of derivatives exist for some lattice systems only and at single points", "anchors": ["src/prdc/crystal/UnitCell1.cpp", "src/prdc/crystal/UnitCell2.cpp: setBasis", "src/prdc/crystal/UnitCell3.cpp: setBasis"]}
{"id": "C21", "title": "Replicating a unit cell multiplies its lattice vectors", "statement": "replicateUnitCell(in, replicas, out) either raises an error or produces a cell whose i-th Bravais vector equals replicas[i] times that of the input; in particular the volume is multiplied by the product of the replica counts.", "quantifier": "all lattice systems, all positive replica counts, all parameters", "why_tests_cant": "each lattice system and each pattern of equal/unequal replica counts takes a different branch", "anchors": ["src/prdc/crystal/replicateUnitCell.cpp"]}
{"id": "C22", "title": "Full and reduced lattice-parameter indices convert back and forth", "statement": "convertFullParamIdToReduced and convertReducedParamIdToFull are inverse on the indices valid for the lattice system: reduced -> full -> reduced is the identity on 0..nParameter-1, and the full index denotes the same length or angle.", "quantifier": "all lattice systems in 1-3 dimensions, all indices", "why_tests_cant": "small finite table, but tests cover only some rows", "anchors": ["src/prdc/crystal/paramIdConversions.cpp"]}
{"id": "C23", "title": "The minimum image of a wavevector is an equivalent wavevector of minimal norm among the candidates", "statement": "shiftToMinimum(v, d, cell) returns a vector congruent to v modulo the mesh dimensions whose squared norm is not larger (to within the stated tolerance) than that of any candidate image with shifts in -2..2, and applying it to its result does not change the norm.", "quantifier": "all integer wavevectors, all meshes, all unit cells", "why_tests_cant": "ranges over all cells, including strongly oblique ones", "anchors": ["src/prdc/crystal/shiftToMinimum.cpp"]}
{"id": "C24", "title": "hasImplicitInverse identifies exactly the wavevectors whose inverse is missing from the half-space k-grid", "statement": "For a wavevector of the real-to-complex DFT grid, hasImplicitInverse is true iff no grid wavevector is equivalent to its inverse; hence summing an inversion-symmetric function over the k-grid with weight 2 for such vectors and 1 for the others gives the sum over the full grid.", "quantifier": "all D, all mesh dimensions, all k-grid wavevectors", "why_tests_cant": "the unit test compares the function with itself; only a specification over all meshes detects an off-by-one", "anchors": ["src/prdc/cpu/FFT.h: hasImplicitInverse, computeKMesh", "src/prdc/cpu/WaveList.tpp: allocate, computedKSq", "src/prdc/cuda/FFT.h", "src/prdc/cuda/WaveList.tpp"]}
{"id": "C25", "title": "Symmetry-adapted basis coefficients survive conversion to Fourier components and back", "statement": "Converting symmetry-adapted basis components to a k-grid field and converting back gives the original components, for every valid star structure.", "quantifier": "all valid bases (any group, mesh, lattice), all component vectors", "why_tests_cant": "tests convert a few fields for a few groups", "anchors": ["src/prdc/field/fieldIoUtil.tpp: convertBasisToKGrid, convertKGridToBasis", "src/prdc/crystal/Basis.tpp"]}
{"id": "C26", "title": "Field files in real-space grid format round-trip", "statement": "Reading back the data section written for an array of r-grid fields gives the same fields, whatever the number of fields and the mesh; every grid point is written once and read once.", "quantifier": "all D, all mesh dimensions, all numbers of fields, all values representable in the file format", "why_tests_cant": "any mesh shape for which the traversal order of writer and reader disagreed would silently permute the field", "anchors": ["src/prdc/field/fieldIoUtil.tpp: readRGridData, writeRGridData", "src/pscf/mesh/MeshIteratorFortran.tpp"]}
{"id": "C27", "title": "Replicating fields repeats them periodically", "statement": "replicateUnitCell writes fields on the mesh with dimensions replicas[i]*dims[i] such that the value at position p is the input value at p mod dims; the number of points and mean are consistent; expandRGridDimension repeats the field along the added dimensions.", "quantifier": "all meshes, replica counts and fields", "why_tests_cant": "index arithmetic over all shapes", "anchors": ["src/prdc/field/fieldIoUtil.tpp: replicateUnitCell, expandRGridDimension"]}
{"id": "C28", "title": "A basis-format field file with a malformed pair of inverse-related stars is rejected", "statement": "When reading a field file in basis format, an open star that is not immediately followed by its inverse partner in the basis causes an error.", "quantifier": "all basis structures and all field files", "why_tests_cant": "requires malformed files and bases; the intended check is an assignment and can never fail", "anchors": ["src/prdc/field/fieldIoUtil.tpp: readBasisData"]}
{"id": "C29", "title": "Any order of field-setting calls is accepted by the w-field container and leaves consistent data", "statement": "After any sequence of setBasis/setRGrid/readBasis/readRGrid calls, the container reports hasData; when isSymmetric is reported, basis and r-grid components represent the same field; and a call with correctly dimensioned data never fails because of earlier calls.", "quantifier": "all call sequences", "why_tests_cant": "state-machine property over all histories", "anchors": ["src/prdc/field/WFieldsTmpl.tpp", "src/prdc/field/MaskTmpl.tpp"]}
{"id": "C30", "title": "Concentration fields reported as available belong to the current fields and unit cell", "statement": "At every point of any sequence of system operations, if c().hasData() then the c fields are those computed from the current w fields, external fields, mask and unit cell.", "quantifier": "all sequences of system operations", "why_tests_cant": "history property; depends on every mutator notifying the system", "anchors": ["src/prdc/system/SystemTmpl.tpp: constructor observers, compute, clearCFields, setUnitCell", "src/prdc/field/WFieldsTmpl.tpp", "src/prdc/field/MaskTmpl.tpp"]}
{"id": "C31", "title": "Thermodynamic properties and concentrations reported as available belong to the current model parameters", "statement": "At every point, if the system reports that free energy and pressure (or c fields) are available, they are those of the current parameters chi, Kuhn lengths, block lengths, volume fractions, chemical potentials and solvent sizes.", "quantifier": "all sequences of operations including parameter modification", "why_tests_cant": "history property; parameter changes do not notify anyone", "anchors": ["src/prdc/system/SystemTmpl.tpp: clearCFields", "src/prdc/system/ScftThermoTmpl.tpp: compute", "src/prdc/solvers/MixtureModifierPrdc.tpp"]}
{"id": "C32", "title": "Stress values reported as available belong to the current state", "statement": "If stress is returned without error by computeStress(), it is the stress of the current w fields and unit cell.", "quantifier": "all sequences of operations", "why_tests_cant": "history property", "anchors": ["src/prdc/system/SystemTmpl.tpp: computeStress", "src/prdc/solvers/MixturePrdc.tpp: compute, computeStress"]}
{"id": "C33", "title": "Every command in a command file is executed", "statement": "For every command script, all complete commands up to FINISH or the end of the file are executed, in order.", "quantifier": "all scripts", "why_tests_cant": "depends on the last line's terminator, which tests never vary", "anchors": ["src/prdc/system/SystemTmpl.tpp: readCommands"]}
{"id": "C34", "title": "The global polymer model cannot change after it has been locked", "statement": "After lock(), every setModel call raises an error and the reported model never changes again; before it, the last setModel value is reported.", "quantifier": "all call sequences", "why_tests_cant": "history property", "anchors": ["src/pscf/chem/PolymerModel.cpp"]}
{"id": "C35", "title": "Interaction maps concentrations to fields and back", "statement": "computeW then computeC (with the Lagrange multiplier recovered by computeXi) is the identity on concentrations that sum to one, whatever constant is added to the fields; concentrations returned by computeC always sum to one; fHelmholtz is the quadratic form whose gradient is computeW.", "quantifier": "all numbers of monomers, all symmetric invertible chi matrices with nonzero sum of inverse elements", "why_tests_cant": "algebra over all chi matrices", "anchors": ["src/pscf/inter/Interaction.cpp: updateMembers, fHelmholtz, computeW, computeC, computeXi"]}
{"id": "C36", "title": "A singular chi matrix is detected", "statement": "For two monomer types, every singular chi matrix raises an error when the inverse is computed, instead of producing non-finite inverse elements.", "quantifier": "all 2x2 matrices", "why_tests_cant": "the all-zero matrix (the default of an athermal blend) makes the test expression 0/0, which compares false", "anchors": ["src/pscf/inter/Interaction.cpp: updateMembers"]}
{"id": "C37", "title": "The SCFT residual vanishes exactly at solutions of the SCFT equations", "statement": "At a grid point or basis function, the residual vector used by the Anderson-mixing iterators is zero for all monomers iff the concentrations satisfy incompressibility and w_i = sum_j chi_ij c_j + xi for some xi (with the external field and mask terms where present).", "quantifier": "all numbers of monomer types, all chi matrices with an inverse, all fields", "why_tests_cant": "equivalence over all fields", "anchors": ["src/rpc/scft/iterator/AmIteratorBasis.tpp: getResidual", "src/r1d/iterator/AmIterator.cpp: getResidual", "src/pscf/iterator/AmbdInteraction.cpp: update"]}
{"id": "C38", "title": "Anderson mixing keeps its inner-product matrix equal to the matrix of inner products of the stored residual differences", "statement": "At each iteration, after any number of iterations (with the history full or not), the matrix used in the mixing equations holds the inner products of the stored residual differences, and the right-hand side holds their products with the current residual; the resulting trial is a stationary point of the norm of the extrapolated residual.", "quantifier": "all residual histories, all history lengths", "why_tests_cant": "invariant over all iteration histories with wrap-around of the ring buffer", "anchors": ["src/pscf/iterator/AmIteratorTmpl.tpp: updateU, updateV, computeTrialCoeff"]}
{"id": "C39", "title": "The iterator reports success only when the error tolerance is met by the current fields", "statement": "solve() returns 0 only if the error computed from the residual of the fields currently in the system is below epsilon; otherwise it returns 1 after at most maxItr iterations or on NaN.", "quantifier": "all systems, all tolerances and iteration limits", "why_tests_cant": "property of every execution", "anchors": ["src/pscf/iterator/AmIteratorTmpl.tpp: solve"]}
{"id": "C40", "title": "A sweep takes increasing steps from 0 and ends at 1 or raises an error", "statement": "The contour values accepted by a sweep start at 0, strictly increase, never exceed 1 by more than the tolerance, and, if no error is raised, end at 1; the step never falls below one tenth of the initial step without an error; each halving follows a failed solve.", "quantifier": "all sequences of solver outcomes, all positive numbers of steps", "why_tests_cant": "schedule-like property over all success/failure patterns", "anchors": ["src/pscf/sweep/SweepTmpl.tpp: sweep"]}
{"id": "C41", "title": "Every sweep terminates", "statement": "sweep() ends, successfully or with an error, for every value of ns that readParameters accepts and every pattern of solver outcomes.", "quantifier": "all integers ns accepted by the parameter file, all outcomes", "why_tests_cant": "non-termination cannot be observed by a finite test", "anchors": ["src/pscf/sweep/SweepTmpl.tpp: readParameters, sweep"]}
{"id": "C42", "title": "Continuation coefficients are exact for polynomials up to the history order", "statement": "The extrapolation coefficients at a new contour value reproduce every polynomial of degree less than the number of stored states; in particular they sum to one.", "quantifier": "all distinct contour values, all history sizes up to capacity", "why_tests_cant": "algebraic identity for all nodes", "anchors": ["src/pscf/sweep/SweepTmpl.tpp: setCoefficients", "src/rpc/scft/sweep/Sweep.tpp: extrapolate"]}
{"id": "C43", "title": "Continuation transfers the extrapolated unit cell to the system", "statement": "During a sweep with a flexible unit cell, after extrapolation the system's lattice parameters equal the extrapolated ones whenever any of them changed.", "quantifier": "all lattice systems, all flexibility patterns, all histories", "why_tests_cant": "tests use cubic or lamellar cells with a single parameter, where any and all coincide", "anchors": ["src/rpc/scft/sweep/Sweep.tpp: extrapolate", "src/rpc/scft/sweep/BasisFieldState.tpp: setSystemState"]}
{"id": "C44", "title": "A mix-and-match environment accepts its generators in either order", "statement": "Constructing an environment from one mask generator and one external-field generator succeeds whichever is given first, and assigns each to its role.", "quantifier": "all pairs of generators of distinct type", "why_tests_cant": "the existing environment passes the mask first only", "anchors": ["src/pscf/environment/MixAndMatchEnvTmpl.h"]}
{"id": "C45", "title": "Film environments reject lattices whose vectors are not orthogonal to the film normal", "statement": "For a film with walls normal to a lattice vector, the check raises an error whenever the normal vector is not orthogonal to the other lattice vectors, and normalVecId is accepted only in [0,D).", "quantifier": "all lattice parameters, all normalVecId values", "why_tests_cant": "tests use acute and right angles; an obtuse angle makes the dot product negative", "anchors": ["src/prdc/environment/FilmFieldGenMaskBase.tpp: readParameters, checkLatticeVectors"]}
{"id": "C46", "title": "A rejected or failed Monte Carlo move leaves the simulator exactly as it was", "statement": "After a move that is rejected or whose compressor fails, the w fields, their eigen-components, the Hamiltonian and its components, and every derived quantity reported as available are those from before the move, and the next move starts from a valid state.", "quantifier": "all moves, all random outcomes, all sequences of moves", "why_tests_cant": "history property over accept/reject/fail outcomes", "anchors": ["src/rpc/fts/simulator/Simulator.tpp: saveState, restoreState, clearState, clearData", "src/rpc/fts/montecarlo/McMove.tpp: move", "src/rpc/fts/montecarlo/ForceBiasMove.tpp: move"]}
{"id": "C47", "title": "Force-bias moves satisfy detailed balance", "statement": "The acceptance weight of the force-bias move equals exp(-dH) times the ratio of the reverse to the forward proposal density of the Gaussian force-biased proposal, for every displacement; exchanging initial and final states inverts the weight.", "quantifier": "all numbers of monomers, all meshes, all fields and displacements, all positive mobilities", "why_tests_cant": "stochastic correctness cannot be seen in a unit test", "anchors": ["src/rpc/fts/montecarlo/ForceBiasMove.tpp: move"]}
{"id": "C48", "title": "Field moves change only exchange components and the compressor changes only the pressure component", "statement": "A Monte Carlo or Brownian displacement leaves the pressure-like eigen-component of the fields unchanged and changes each exchange component by exactly the intended displacement; the compressor's updates leave every exchange component unchanged.", "quantifier": "all chi matrices, all fields, all displacements", "why_tests_cant": "orthogonality argument over all inputs", "anchors": ["src/rpc/fts/montecarlo/RealMove.tpp: attemptMove", "src/rpc/fts/brownian/ExplicitBdStep.tpp: step", "src/rpc/fts/brownian/LMBdStep.tpp", "src/rpc/fts/compressor/AmCompressor.tpp: update", "src/rpc/fts/compressor/LrCompressor.tpp: updateWFields", "src/rpc/fts/simulator/Simulator.tpp: computeWc, analyzeChi"]}
{"id": "C49", "title": "A field-theoretic simulation uses the Hamiltonian of the current parameters", "statement": "Throughout a simulation with or without a parameter ramp, the Hamiltonian and functional derivatives used to accept or propose a move are those of the current fields and the current parameters.", "quantifier": "all ramps, all move outcomes", "why_tests_cant": "history property", "anchors": ["src/rpc/fts/ramp/LinearRamp.tpp: setParameters", "src/rpc/fts/montecarlo/McSimulator.tpp: simulate", "src/rpc/fts/simulator/Simulator.tpp"]}
{"id": "C50", "title": "A ramp or sweep parameter written to a file can be read back", "statement": "Writing a RampParameter (or SweepParameter) to a stream and reading the text back gives the same parameter type.", "quantifier": "all parameter types", "why_tests_cant": "tests write only a few of the types", "anchors": ["src/rpc/fts/ramp/RampParameter.tpp: readParamType, type", "src/rpc/scft/sweep/SweepParameter.tpp", "src/r1d/sweep/SweepParameter.cpp"]}
{"id": "C51", "title": "Simulations sample each analyzer exactly at its interval, and run without analyzers", "statement": "During a simulation each analyzer samples at step 0 and at every completed step that is a multiple of its interval, once per such step; a parameter file without an analyzer block runs all the same.", "quantifier": "all intervals, base intervals, numbers of steps and move outcomes", "why_tests_cant": "schedule property", "anchors": ["src/rpc/fts/montecarlo/McSimulator.tpp: simulate", "src/rpc/fts/brownian/BdSimulator.tpp: simulate", "src/rpc/fts/analyzer/AnalyzerManager.tpp: sample", "src/rpc/fts/analyzer/Analyzer.tpp"]}
{"id": "C52", "title": "Basis change of monomer fields is invertible", "statement": "If maxBasisError(normSq) is zero then convertFromBasis with prefactor b undoes convertToBasis with prefactor a whenever a*b*normSq = 1, and the reverse.", "quantifier": "all numbers of monomers, all orthogonal bases, all fields", "why_tests_cant": "algebra over all bases", "anchors": ["src/prdc/cpu/FieldBasisConverter.tpp"]}
{"id": "C53", "title": "The relaxation iterator can recover from a step that increases the error", "statement": "When a full relaxation step increases the error, the iterator retries with smaller increments (up to three) and accepts the first that lowers the error.", "quantifier": "all field states and step sizes", "why_tests_cant": "requires a state where the full step overshoots; the code compares the wrong norms", "anchors": ["src/r1d/iterator/BinaryRelaxIterator.cpp: solve, computeDW"]}
{"id": "C54", "title": "Debye functions are continuous approximations of the ideal-chain correlation functions", "statement": "The small-argument branch of each intrablock correlation function agrees with the exact function to the order of the neglected term, so the function has no jump larger than rounding at the branch point.", "quantifier": "all wavenumbers, lengths and segment lengths", "why_tests_cant": "tests evaluate far from the branch point", "anchors": ["src/pscf/chem/Debye.cpp: dt, db"]}
{"id": "C55", "title": "Field comparison reports the true maximum and root-mean-square differences", "statement": "compare(a,b) returns the maximum absolute difference over all elements; rmsDiff is the root of the mean square difference over all elements; both are zero iff the arrays are equal, and symmetric in their arguments; for arrays of fields the mean is over all elements.", "quantifier": "all array sizes and values", "why_tests_cant": "ranges over all arrays", "anchors": ["src/pscf/math/FieldComparison.tpp: compare"]}
{"id": "C56", "title": "Homogeneous mixtures: composition, concentrations and chemical potentials are consistent", "statement": "setComposition accepts exactly compositions in range and leaves volume fractions that sum to one; monomer concentrations computed from them sum to one and distribute each species over its monomer types in proportion to its blocks; free energy and pressure satisfy pressure = sum mu*phi/size - f.", "quantifier": "all mixtures of polymers and solvents, all compositions, all chi", "why_tests_cant": "algebra over all mixtures", "anchors": ["src/pscf/floryHuggins/Mixture.cpp: setComposition, computeC, computeMu, computeFreeEnergy"]}
{"id": "C57", "title": "Uniform fields give the exact partition function and uniform concentrations", "statement": "If every w field is spatially uniform and |k|^2 = 0 at the zero wavevector, the periodic solver returns q = exp(-sum_b L_b w_b) (beads: nBead_b w_b) divided by phiTot, and every block concentration equals phi phiTot L_b / L at every grid point.", "quantifier": "all dimensions, meshes, architectures, block parameters, target contour steps, both polymer models", "why_tests_cant": "unit tests check one or two architectures and step sizes; the claim is exact for all of them and pins the Richardson extrapolation weights", "anchors": ["src/rpc/solvers/Block.tpp: stepThread, stepBead, computeExpKsq, setupSolver", "src/rpc/solvers/Propagator.tpp: solve, computeQ", "src/rpc/solvers/Polymer.tpp: compute"]}
{"id": "C58", "title": "Stored basis vectors belong to the stored lattice parameters", "statement": "Whenever a unit cell reports that it is initialized, its Bravais and reciprocal basis vectors and all stored derivatives are those of its current lattice system and parameters.", "quantifier": "all sequences of set, setParameters, assignment, stream extraction and loading operations", "why_tests_cant": "depends on the order of operations on one object, which unit tests do not enumerate", "anchors": ["src/prdc/crystal/UnitCellBase.tpp: setLattice, setParameters", "src/prdc/crystal/UnitCell.h: operator >>, serialize", "src/prdc/crystal/UnitCell2.cpp: set, operator ="]}
{"id": "C59", "title": "The symmetry test accepts exactly the symmetric fields", "statement": "hasSymmetry accepts a k-grid field (for a given tolerance) exactly when it is, up to that tolerance, a combination of the basis functions; in particular a field that passes for every tolerance is unchanged by conversion to basis components and back.", "quantifier": "all valid bases, all real fields in Fourier form, all tolerances", "why_tests_cant": "tests use a handful of fields, nearly all symmetric; the claim concerns all fields that are not", "anchors": ["src/prdc/field/fieldIoUtil.tpp: hasSymmetry, convertKGridToBasis"]}
{"id": "C60", "title": "Sweep parameters of an environment take effect", "statement": "If an environment is up to date and a sweep sets one of the parameters that the environment offers, the fields used in the next calculation are those that the new parameter values call for.", "quantifier": "all film systems, all parameter names, indices and values", "why_tests_cant": "tests sweep only parameters of the mixture and interaction, or check the environment through its own setParameter", "anchors": ["src/prdc/environment/MixAndMatchEnv.tpp: setParameter, getParameterTypes, generate", "src/prdc/environment/FilmFieldGenExtBase.tpp: needsUpdate, setParameter, getParameterTypes"]}
{"id": "C61", "title": "The stress stored by an environment is the modified stress of the mixture", "statement": "After computeStress, the environment hands out for each flexible lattice parameter, and only for those, the stress of the mixture plus the contributions of its generators, as modified by them; for the normal length of a film this is the derivative of the excess free energy per area.", "quantifier": "all environments, generators, sets of flexible parameters", "why_tests_cant": "tests cover single film systems with fixed flexible parameters", "anchors": ["src/prdc/environment/MixAndMatchEnv.tpp: modifyStress, computeStress, stress", "src/rpc/environment/FilmFieldGenMask.tpp: modifyStress"]}
{"id": "C62", "title": "Mask and external fields of a film have the symmetry of the space group", "statement": "Whenever the film generators accept a space group, grid points that an operation of the group maps onto each other have the same mask value, and the same external fields up to 1e-7 (exactly if the walls are equal or differ by more than that).", "quantifier": "all space groups, meshes, lattices, wall parameters, dimensions 1-3", "why_tests_cant": "tests use a few named space groups on small grids", "anchors": ["src/prdc/environment/FilmFieldGenMaskBase.tpp: checkSpaceGroup", "src/prdc/environment/FilmFieldGenExtBase.tpp: checkCompatibility, hasSymmetricWalls", "src/rpc/environment/FilmFieldGenMask.tpp: compute", "src/rpc/environment/FilmFieldGenExt.tpp: compute"]}
{"id": "C64", "title": "Lattice parameters that stay flexible in a film keep it a film", "statement": "modifyFlexibleParams makes no rigid parameter flexible, makes the normal length rigid unless fBulk is known, and a parameter that it leaves flexible can take any value without destroying the orthogonality of the normal vector.", "quantifier": "all lattice systems, normal vectors, parameter values and flexibility arrays", "why_tests_cant": "tests enumerate a few lattices with default angles and only compare the resulting bits", "anchors": ["src/prdc/environment/FilmFieldGenMaskBase.cpp: modifyFlexibleParams"]}
{"id": "C65", "title": "Reported SCFT free energy and pressure", "statement": "When fields and concentrations are available, the reported Helmholtz free energy per monomer is the SCFT functional of the current state: translational entropy of all species minus the mean of w.c over the total volume fraction, plus the external-field and interaction contributions, and the pressure is sum mu phi / size minus that free energy; it does not depend on whether fields are held as basis coefficients or grid values; a constant added to all w fields (with the chemical potentials shifted accordingly) leaves the free energy unchanged and is added to the pressure; in a homogeneous state the values are those of Flory-Huggins theory; and along any smooth path of self-consistent solutions the derivative of the free energy is the sum of explicit contributions of the changed interaction parameters, external fields, mask and cell (Hellmann-Feynman), whatever the concentrations do.", "quantifier": "all numbers of species and monomer types, meshes, symmetric chi matrices, fields, masks; all smooth solution paths", "why_tests_cant": "Tests compare a few converged numbers with stored references; they cannot show that the value is the functional for every input, nor that its derivative is the stress and the sensitivities reported elsewhere in the code.", "anchors": ["src/prdc/system/ScftThermoTmpl.tpp:51-247", "src/rpc/scft/ScftThermo.cpp:41-52"]}
{"id": "C63", "title": "The stress of a thin film is the derivative of its free energy", "statement": "With a film environment, the stress of the mixture plus the contributions of the mask generator and of the external-field generator is the derivative of the free energy per monomer with respect to the length of the lattice vector normal to the walls, when mask and external fields are regenerated for each length; contributions for the other parameters are zero; the modified stress is the derivative of the excess free energy (L-T)(F-fBulk).", "quantifier": "all lattices, normal vectors, meshes, thicknesses, wall interaction parameters, mixtures and smooth families of self-consistent solutions", "why_tests_cant": "Tests compare the contributions with stored numbers for one solution on one grid; a wrong term that is small on that grid passes.", "anchors": ["src/rpc/environment/FilmFieldGenMask.tpp:60-203", "src/rpc/environment/FilmFieldGenExt.tpp:58-150"]}
{"id": "C66", "title": "The periodic stress is the derivative of the free energy with respect to the lattice parameters (bead model)", "statement": "For any tree of bead blocks, any number of polymers and solvents, any grid and fields, the concentrations computed by the solver are the exact response of ln q to the monomer fields and the value reported by computeStress is the exact derivative of ln q with respect to a lattice parameter; hence along any path of self-consistent solutions the reported stress is the derivative of the reported free energy.", "quantifier": "for all grids, tree topologies, numbers of beads, Kuhn lengths, fields, wavenumbers, differentiable paths and all lattice systems", "why_tests_cant": "The unit tests compare stress with finite differences on a few meshes and only to a few digits; an error in the weight of one plane of wavevectors is below their tolerance because those amplitudes are tiny in converged fields.", "anchors": ["src/prdc/cpu/WaveList.tpp:166-203", "src/rpc/solvers/Block.tpp:537-738", "src/rpc/solvers/Polymer.tpp:93-125", "src/prdc/solvers/MixturePrdc.tpp:230-268"]}
{"id": "C67", "title": "The thread-model solver converges to the continuous-chain theory with fourth order in the contour step", "statement": "For every polymer of continuous blocks the modified diffusion equation with vertex conditions has exactly one solution on the grid, and the propagators, partition function, q and block concentrations computed by the periodic solver (pseudo-spectral step with Richardson extrapolation, Simpson rule) differ from it by at most C ds^4, with C independent of the contour step.", "quantifier": "for all grids, even |k|^2, tree topologies, block lengths, Kuhn lengths, monomer fields, ensembles, and all contour steps", "why_tests_cant": "Tests compare numbers for one or two contour steps with a tolerance; the order of the scheme at every vertex of an arbitrary tree and the correctness of its limit are statements about all small steps.", "anchors": ["src/rpc/solvers/Block.tpp:126-131", "src/rpc/solvers/Block.tpp:277-347", "src/rpc/solvers/Block.tpp:434-490", "src/rpc/solvers/Propagator.tpp:243-276", "src/rpc/solvers/Polymer.tpp:59-88"]}
{"id": "C68", "title": "Cached wavevector data always belong to the current unit cell, and |k|^2 is even", "statement": "After any sequence of unit-cell parameter changes and requests, the minimum images, squared lengths and their derivatives that a WaveList reports as available are those of the present unit cell (minimum images kept across a change of lengths are still shortest because the angles are fixed), and the list of |k|^2 on the half grid is the restriction of an even function on the full grid.", "quantifier": "for all lattice systems, meshes, parameter values for which the image search succeeds, and all interleavings of changes and requests", "why_tests_cant": "Stale caches appear only for particular orders of updates and requests, and an image search limited to five shifts per direction fails only on meshes no test uses; tests check a few meshes with one order.", "anchors": ["src/prdc/cpu/WaveList.tpp:49-206", "src/prdc/crystal/hasVariableAngle.cpp:13-42", "src/prdc/crystal/shiftToMinimum.cpp:34-102"]}
{"id": "C69", "title": "Stars are the orbits of the space group and the basis spans exactly the symmetric fields", "statement": "In the basis that makeBasis constructs, two waves belong to the same star exactly if an operation of the space group turns one into the other; a star is cancelled exactly if an operation fixes one of its waves and shifts its phase; coefficients transform under every operation by the phase of its translation and are exactly conjugate for inverse waves; and a real field on the grid is invariant under the group exactly if it is a combination of the basis functions, whose components the conversions recover.", "quantifier": "for all space groups in 1 to 3 dimensions with translations that are multiples of 1/N (N at most 500), all meshes of fewer than 2^31 points that the group maps to themselves, all orders in which equal norms are sorted, and all fields", "why_tests_cant": "Tests construct bases of a few groups on a few meshes and check numbers of stars; an orbit that is split or merged, or a wrong phase, shows only for particular groups and meshes, and completeness is a statement about all symmetric fields.", "anchors": ["src/prdc/crystal/Basis.tpp:78-905", "src/prdc/crystal/TWave.h:20-88", "src/prdc/crystal/SpaceSymmetry.h:445-458", "src/prdc/field/fieldIoUtil.tpp"]}
{"id": "C70", "title": "Stress of the thread model converges to the derivative of the free energy", "statement": "As the contour step ds goes to zero, the stress that computeStress returns for the thread model approaches the derivative of the free energy of the continuous-chain theory with respect to the lattice parameter, along any differentiable path of solutions of the self-consistent field equations, with an error at most C ds^4.", "quantifier": "for all grids of any dimension, all acyclic branched polymers and mixtures of polymers and solvents in the closed ensemble, all chi matrices, external fields and masks, all differentiable paths of solutions, and all sufficiently small ds", "why_tests_cant": "Tests compare the stress with finite differences of the computed free energy for a few systems within loose tolerances, which hides both the order of convergence and the weights of single waves on small grids.", "anchors": ["src/rpc/solvers/Block.tpp:537-613", "src/rpc/solvers/Polymer.tpp:93-125", "src/prdc/solvers/MixturePrdc.tpp:230-268", "src/prdc/cpu/WaveList.tpp:166-203"]}
{"id": "C71", "title": "GPU reductions return the reduction of the whole array", "statement": "sum, innerProduct, max, min, maxAbs and minAbs of the CUDA code return the exact (in real arithmetic) sum, inner product, maximum, minimum and extreme absolute values of the array, whatever the order in which threads of a block are executed between barriers, for every array size and every thread-per-block setting accepted by ThreadArray; and no thread reads outside the array.", "quantifier": "for all nonempty arrays of any size, all settings of the number of threads per block, all sequences of earlier calls, all interleavings of the threads of a block between barriers, and every device with warps of 32 threads", "why_tests_cant": "Tests run a few array sizes with one scheduler and cannot force other interleavings; sizes above 2^24 are too large for the unit tests, and races show up only on some hardware.", "anchors": ["src/prdc/cuda/Reduce.cu", "src/pscf/cuda/ThreadArray.cu", "src/rpg/scft/iterator/AmIteratorGrid.tpp:412-420"]}
{"id": "C72", "title": "Execution configurations on a mesh cover every grid point exactly once", "statement": "After ThreadMesh::setConfig returns, launching a kernel with the stored grid and block dimensions makes exactly one thread write each element of a field on the requested mesh, that thread computes the right coordinate along each lattice direction, and no thread writes elsewhere. Blocks consist of whole warps, have at most the requested number of threads and at most 64 in z, and no block is entirely outside of the mesh. Neither loop in setConfig runs forever and none of its internal checks fails.", "quantifier": "for all meshes of 1, 2 or 3 dimensions and any size, all requested block sizes, all devices with warps of 32 threads, and all sequences of earlier calls", "why_tests_cant": "Tests configure a handful of meshes in a fixed order; a gap or overlap for an unusual combination of dimensions, or reuse of a stale configuration after another call or an exception, would leave single elements wrong.", "anchors": ["src/pscf/cuda/ThreadMesh.cu", "src/rpg/environment/FilmFieldGenMask.tpp:50-95", "src/rpg/environment/FilmFieldGenExt.tpp:55-105"]}
{"id": "C73", "title": "GPU wavevector data are those of the current unit cell, and the same as on the CPU", "statement": "cuda WaveList::computeMinimumImages assigns to each wave its shortest image among the shifts that the threads examine, the lexicographically last one among equally short images, and the square of its length, whatever the order in which blocks and threads run. After any sequence of parameter changes and requests, the minimum images, squared lengths and derivatives that the GPU wave list reports as available are those of the present unit cell and are equal to those of the CPU wave list; both fail together, and there is no undefined behaviour.", "quantifier": "for all lattices, meshes, parameters, sequences of operations, thread-per-block settings, interleavings of threads and orders of blocks", "why_tests_cant": "Tests compare a few meshes on one GPU with one scheduler; races, meshes with unusual aspect ratios and meshes above 2^24 k-grid points do not occur in them.", "anchors": ["src/prdc/cuda/WaveList.tpp", "src/prdc/cuda/WaveList.h", "src/prdc/cpu/WaveList.tpp", "src/prdc/crystal/shiftToMinimum.cpp"]}
{"id": "C74", "title": "Element-wise operations on device arrays compute their formulas", "statement": "Every wrapper of VecOp, of VecOpMisc and of the kernels in rpg Block.tpp either refuses its arguments or leaves each element of the output slices equal, as a complex number, to the documented formula of the values that the operands had before the call, leaves all other memory unchanged, and accesses no memory outside the slices, whatever the number of threads and the order in which they execute their statements.", "quantifier": "for all 74 kernels, array contents, capacities, slices, scalars, numbers of vectors, thread-per-block settings and interleavings of the statements of all threads", "why_tests_cant": "Unit tests use a few arrays of equal length with separate inputs and outputs on one device; they do not exercise aliased arguments, slices with odd offsets, arrays of different lengths or schedules that the device does not choose.", "anchors": ["src/prdc/cuda/VecOp.cu", "src/prdc/cuda/VecOp.h", "src/prdc/cuda/VecOpMisc.cu", "src/prdc/cuda/VecOpMisc.h", "src/rpg/solvers/Block.tpp", "src/pscf/cuda/ThreadArray.cu"]}
{"id": "C75", "title": "Polymer solver on the GPU computes what the CPU solver computes", "statement": "For every acyclic branched polymer, in the thread and the bead model, Polymer::compute of rpg returns the same species properties as that of rpc and leaves the concentration field of every block equal to that of the CPU, and computeStress then returns the same derivatives of the free energy per chain, with and without batched transforms; no memory other than the arrays of the blocks changes and undefined memory is not read.", "quantifier": "for all trees of blocks, contour discretizations and bead numbers, meshes, fields, wavevector data, placements of the arrays in device memory, previous contents of the arrays, numbers of threads and interleavings of the threads of every kernel", "why_tests_cant": "Tests compare a few linear chains with stored fields on one device, after allocations that happen to contain zeros; they cannot vary the interleaving of threads or the initial contents of memory, and cover neither all trees nor all discretizations.", "anchors": ["src/rpg/solvers/Block.tpp", "src/rpg/solvers/Propagator.tpp", "src/rpg/solvers/Propagator.h", "src/rpg/solvers/Polymer.tpp", "src/pscf/solvers/PolymerTmpl.tpp", "src/prdc/cuda/FFT.tpp", "src/prdc/cuda/FFTBatched.tpp"]}
{"id": "C76", "title": "Device arrays own their memory once, and slices stay inside their owner", "statement": "In every program that uses DeviceArray, HostDArray transfers and RField, every allocated element of device memory belongs to exactly one array and is freed exactly once; an array that reports itself allocated refers to allocated memory, and an associated array to a slice of an owner with data; a failed call changes nothing; an assignment copies all elements and changes nothing else; meshDimensions of a field agree with its capacity; and the slices of a propagator are the consecutive slices of one array after any sequence of reallocations.", "quantifier": "for all finite programs of calls (construction, destruction, allocation, association, dissociation, assignment, transfer, queries) on any number of arrays, all sizes and offsets, all behaviours of cudaMalloc, and all sequences of numbers of contour steps", "why_tests_cant": "Tests run a few fixed sequences of calls; a stale slice, a double free or a leak depends on the order of calls on several objects and on which addresses the allocator returns, and often shows no symptom.", "anchors": ["src/pscf/cuda/DeviceArray.h", "src/pscf/cuda/HostDArray.h", "src/prdc/cuda/RField.tpp", "src/rpg/solvers/Propagator.tpp", "src/rpg/solvers/Propagator.h"]}
{"id": "C77", "title": "Intramolecular correlation function of branched chains", "statement": "For every accepted branched polymer, the edge iterator visits exactly the blocks on the unique route between two blocks, in order, without throwing; and the k-space correlation function used by the linear-response compressors is the sum over all pairs of segments of exp(-k^2 R^2/6), with R^2 the mean square distance along the route that joins them, plus the solvent term: exactly at k = 0 and for every k above the small-argument threshold of each block, and within 2e-5 of the k = 0 value for all k. It is positive and largest at k = 0, where it equals the mean number of segments per molecule.", "quantifier": "for all numbers of polymer and solvent species, all branched (acyclic) architectures, all block lengths or bead numbers and segment lengths, both chain models, and all wavenumbers", "why_tests_cant": "The unit tests compare one or two linear and branched molecules; a wrong block or a half bond lost on a particular topology, direction or model only changes the convergence rate of the compressor and would not be seen.", "anchors": ["src/pscf/chem/EdgeIterator.cpp", "src/rpc/fts/compressor/IntraCorrelation.tpp", "src/rpg/fts/compressor/IntraCorrelation.tpp", "src/pscf/chem/Debye.cpp"]}
{"id": "C78", "title": "Linear-response correction is the Newton step of the bead solver", "statement": "Take any mixture of branched bead-model polymers and solvents in closed ensembles in a homogeneous state, and change all monomer fields by t times the same field of zero average. Then the mixture solver (propagators, concentrations of blocks, accumulation by monomer type, solvents) succeeds for every t, and at t = 0 the total concentration responds by - v S(k) times the field, where S(k) is the sum over all pairs of beads in the chains. Hence the correction that the linear-response compressor adds for a residual r changes the residual to first order by - r multiplied by S(k) / S_code(k), and by exactly - r when no wavenumber of the grid is below the small-argument threshold.", "quantifier": "for all grids, all |k|^2 functions even on the grid, all numbers of species, branched architectures, bead numbers, segment lengths, homogeneous fields and residual fields of zero average", "why_tests_cant": "Tests check that a compressor converges for a few systems; a correction with the wrong factor or from a wrong correlation function still converges, only more slowly, and the comparison of two independent computations (propagators on the grid, Debye sums over pairs) is not made by any test.", "anchors": ["src/prdc/solvers/MixturePrdc.tpp", "src/rpc/fts/compressor/LrCompressor.tpp", "src/rpc/fts/compressor/IntraCorrelation.tpp", "src/rpc/solvers/Block.tpp", "src/rpc/solvers/Solvent.tpp"]}
{"id": "C79", "title": "Analyzers report the derivatives of the free energy", "statement": "In every simulator state whose available data are current (which includes every state between the moves of a Monte Carlo simulation without ramp), the analyzers ChiDerivative, ConcentrationDerivative and PerturbationDerivative compute what is missing, leave the fields alone, and return the derivative, at fixed fields, of the sampled Hamiltonian plus the logarithm of the Gaussian normalisation with respect to chi, to the monomer concentration 1/vMonomer, and to the coupling parameter lambda; HamiltonianAnalyzer returns ideal and field terms and a total that is the energy of the current fields.", "quantifier": "for all simulator states, all w fields, grids, volumes, interaction parameters, perturbation parameters and all sequences of accepted, rejected and failed moves", "why_tests_cant": "The tests of the analyzers only run them; thermodynamic integration with a wrong term or a stale Hamiltonian yields plausible numbers.", "anchors": ["src/rpc/fts/analyzer/ChiDerivative.tpp", "src/rpc/fts/analyzer/ConcentrationDerivative.tpp", "src/rpc/fts/analyzer/PerturbationDerivative.tpp", "src/rpc/fts/analyzer/HamiltonianAnalyzer.tpp", "src/rpc/fts/perturbation/EinsteinCrystalPerturbation.tpp", "src/rpc/fts/simulator/Simulator.tpp"]}
{"id": "C80", "title": "Order parameters and structure factors of field-theoretic simulations", "statement": "FourthOrderParameter returns the fourth root of the sum, over all pairs {k, -k} of nonzero wavevectors of the full grid, of the fourth power of the amplitude of the field, each pair counted once; MaxOrderParameter returns the largest squared amplitude over all nonzero wavevectors of the full grid and the minimum image of a wavevector that has it; BinaryStructureFactorGrid writes for every wavenumber, in increasing order, the mean of the structure factor over the wavevectors with that wavenumber.", "quantifier": "for all dimensions, grid sizes, unit cells, fields and (for the structure factor) all lists of wavenumbers", "why_tests_cant": "The tests evaluate one field on one grid and compare with a stored number; the transforms only hold half of the grid, so whether wavevectors are counted once or twice depends on parity of the grid, on ties between minimum images and on the order of the search, for every grid and cell.", "anchors": ["src/rpc/fts/analyzer/FourthOrderParameter.tpp:61-227", "src/rpc/fts/analyzer/MaxOrderParameter.tpp:58-131", "src/rpc/fts/analyzer/BinaryStructureFactorGrid.tpp:71-247", "src/prdc/crystal/shiftToMinimum.cpp:16-102"]}
{"id": "C81", "title": "Host complex arithmetic, vector operations and reductions, with shared arguments", "statement": "Each function of prdc/cpu/complex.h stores in its result the documented complex expression of the values that its arguments held before the call, and changes nothing else; each function of Prdc::Cpu::VecOp stores in every element of the result the documented expression of the elements that its arguments held before the call, changes nothing else, and throws exactly if an array is empty or capacities differ; the reductions return the largest, the smallest, the largest absolute value, the smallest absolute value, the sum and the inner product of their arguments, and NaN if an element is NaN.", "quantifier": "for all memories, addresses of results and arguments (also equal ones), capacities, values and lists of values with NaN at any positions", "why_tests_cant": "The tests use separate variables for arguments and results and arrays of a few ordinary numbers; whether an operation may be done in place, and what a NaN does to a comparison, depends on the order of stores and of comparisons for all arguments.", "anchors": ["src/prdc/cpu/complex.h:28-470", "src/prdc/cpu/VecOp.cpp:18-303", "src/prdc/cpu/Reduce.cpp:18-108"]}
{"id": "C82", "title": "Parameters follow their straight line in sweeps and ramps", "statement": "After LinearSweep::setParameters(s) or LinearRamp::setParameters(i), whatever was done before, each listed parameter has its initial value plus s times its change, everywhere in the system where the value is kept (both elements of chi, the segment lengths of all blocks of a monomer type), and nothing else has changed; the accepted lists keep the sum of volume fractions; if the values at both ends of the line are accepted by the system, so is every value that a sweep or ramp tries on the way; invalid indices are refused.", "quantifier": "for all mixtures, lists of parameters with their indices and changes, initial values, orders of setting, states between the calls and s", "why_tests_cant": "The tests sweep one or two parameters of one system over a few steps; conflicts between entries of the list, the independence of earlier steps, and rounding of the path variable at the end depend on all lists and all numbers of steps.", "anchors": ["src/rpc/scft/sweep/LinearSweep.tpp:24-82", "src/rpc/scft/sweep/SweepParameter.tpp:190-260", "src/rpc/fts/ramp/LinearRamp.tpp:30-84", "src/rpc/fts/ramp/RampParameter.tpp:184-257", "src/prdc/solvers/MixtureModifierPrdc.tpp:44-105", "src/pscf/sweep/SweepTmpl.tpp:61-146", "src/pscf/chem/Species.cpp:43-58"]}
{"id": "C83", "title": "Field files of one-dimensional systems and their change of mesh", "statement": "A field file that was written by FieldIo of r1d is read back as the fields that were written, up to the printed precision, whatever the arrays held before; reading succeeds only on a header with the right dimensions followed by as many complete numbered rows, whose numbers are then in the arrays. remesh writes a file of the requested number of points in which each field has at each new point the linear interpolation between the two neighbouring old points, so that bounds, linear profiles, the sum of the fields and values at common points are kept; extend repeats the last value; the results can be read by a system of the new size.", "quantifier": "for all numbers of fields and points, old and new, all values, all texts", "why_tests_cant": "The tests read and write one file of one size and compare by eye or to a tolerance; truncated files, unusual new sizes, and the position of new points relative to old cells depend on all sizes and texts.", "anchors": ["src/r1d/misc/FieldIo.cpp:61-92", "src/r1d/misc/FieldIo.cpp:129-155", "src/r1d/misc/FieldIo.cpp:268-327", "src/r1d/misc/FieldIo.cpp:341-378"]}
{"id": "C84", "title": "Free energy of one-dimensional systems and comparison to the homogeneous mixture", "statement": "The free energy of an r1d system is the ideal gas term of all species minus the averages of field times concentration plus the average interaction energy, and its pressure is the Legendre transform; both are those of the Flory-Huggins mixture in a homogeneous state, and a constant added to all fields changes only the pressure, by that constant. HomogeneousComparison compares with the mixture of the same composition (mode 0) or of the same chemical potentials (modes 1 and 2), and reports no excess for a homogeneous state.", "quantifier": "for all geometries, mixtures, numbers of polymers and solvents, fields and modes", "why_tests_cant": "The tests compare one system without solvents; which elements of the work arrays are set depends on the numbers of polymers and solvents, and agreement of two independent implementations of the free energy holds for all compositions only by proof.", "anchors": ["src/r1d/System.cpp:508-603", "src/r1d/misc/HomogeneousComparison.cpp:57-112", "src/r1d/misc/HomogeneousComparison.cpp:120-195", "src/pscf/floryHuggins/Mixture.cpp:186-206"]}
{"id": "C85", "title": "Newton-Raphson iterator of one-dimensional systems", "statement": "NrIterator::solve returns 0 only for fields whose concentrations satisfy the self-consistency equations and incompressibility to within epsilon; in the canonical ensemble the last field vanishes at the last point and incompressibility there follows from the conserved average. Whatever the linear solver does, the fields at the end are consistent with the concentrations, and are either the starting ones or have a smaller residual. A state whose concentrations are not numbers, or one of an open solvent with a last point that is not filled, is not reported as converged.", "quantifier": "for all numbers of monomer types and grid points, chi matrices, concentration functions, linear solvers, starting fields, tolerances and numbers of iterations", "why_tests_cant": "A test follows one sequence of accepted and rejected steps from one start; what a success code means for all sequences and all linear solvers needs an invariant of the loop.", "anchors": ["src/r1d/iterator/NrIterator.cpp:82-136", "src/r1d/iterator/NrIterator.cpp:181-225", "src/r1d/iterator/NrIterator.cpp:227-367"]}
{"id": "C86", "title": "Trajectory files are read back as they were written", "statement": "Reading a trajectory file written by TrajectoryWriter with RGridTrajectoryReader gives the configurations of exactly the steps that are multiples of the interval, in order and to the written precision, followed by the end of the file, whatever the reader held before. A trajectory of another mesh is rejected, and every configuration that is written can be read.", "quantifier": "for all numbers of monomer types, meshes, intervals, numbers of steps, configurations and formats", "why_tests_cant": "Tests read one short trajectory that was written on the mesh on which it is read; the statement is about any sequence of frames and about files that do not fit.", "anchors": ["src/rpc/fts/analyzer/TrajectoryWriter.tpp:53-101", "src/rpc/fts/trajectory/RGridTrajectoryReader.tpp:81-124", "src/prdc/field/fieldIoUtil.tpp:254-317"]}
