-Q theories Verif
theories/Base.v
theories/MeshSpec.v
theories/Mesh.v
theories/MeshProofs.v
theories/PropsMesh.v
theories/Polymer.v
theories/PolymerSpec.v
theories/PolymerProofs.v
theories/PolymerTree.v
theories/PolymerPaths.v
theories/PropsPolymer.v
theories/RSum.v
theories/Solve.v
theories/SolveProofs.v
theories/TridiagSpec.v
theories/Tridiag.v
theories/PropsTridiag.v
theories/Species.v
theories/PropsSpecies.v
theories/R1d.v
theories/R1dProofs.v
theories/PropsR1d.v
theories/Fft.v
theories/FftProofs.v
theories/PropsFft.v
theories/Rpc.v
theories/RpcProofs.v
theories/PropsRpc.v
theories/PropsUniform.v
theories/Symmetry.v
theories/SymmetryProofs.v
theories/SymmetryAlg.v
theories/PropsSymmetry.v
theories/UnitCell.v
theories/UnitCellProofs.v
theories/PropsUnitCell.v
theories/ShiftMin.v
theories/PropsShiftMin.v
theories/Interaction.v
theories/PropsInteraction.v
theories/Am.v
theories/AmProofs.v
theories/PropsAm.v
theories/Sweep.v
theories/PropsSweep.v
theories/Fts.v
theories/FtsEig.v
theories/FtsProofs.v
theories/PropsFts.v
theories/PropsFtsMoves.v
theories/ParamIo.v
theories/PropsParamIo.v
theories/Analyzers.v
theories/PropsAnalyzers.v
theories/FieldStore.v
theories/PropsFieldStore.v
theories/System.v
theories/PropsSystem.v
theories/Commands.v
theories/PropsCommands.v
theories/PolymerModel.v
theories/PropsPolymerModel.v
theories/Compare.v
theories/PropsCompare.v
theories/BasisConv.v
theories/PropsBasisConv.v
theories/Debye.v
theories/PropsDebye.v
theories/BinaryRelax.v
theories/PropsBinaryRelax.v
theories/FloryHuggins.v
theories/PropsFloryHuggins.v
theories/FieldIo.v
theories/FieldIoProofs.v
theories/PropsFieldIo.v
theories/PropsFieldRep.v
theories/Basis.v
theories/BasisSpec.v
theories/BasisProofs.v
theories/PropsBasis.v
theories/BasisValid.v
theories/MakeBasis.v
theories/MakeBasisProofs.v
theories/PropsMakeBasis.v
theories/PropsBasisIo.v
theories/Environment.v
theories/Film.v
theories/FilmSpec.v
theories/FilmProofs.v
theories/PropsEnvironment.v
theories/PropsFilm.v
theories/ThermoSpec.v
theories/Thermo.v
theories/PropsThermo.v
theories/FilmStress.v
theories/PropsFilmStress.v
theories/TreeDerivative.v
theories/Stress.v
theories/BeadDerivative.v
theories/StressProofs.v
theories/PropsStress.v
theories/FftCompose.v
theories/Expand.v
theories/ExpandProofs.v
theories/Convergence.v
theories/ThreadConvergence.v
theories/Simpson.v
theories/ConvergenceSpec.v
theories/PropsConvergence.v
theories/WaveListSpec.v
theories/WaveList.v
theories/PropsWaveList.v
theories/OrbitSpec.v
theories/OrbitPhase.v
theories/OrbitStars.v
theories/OrbitCoeff.v
theories/OrbitExact.v
theories/OrbitFacts.v
theories/OrbitFourier.v
theories/OrbitConj.v
theories/OrbitSpan.v
theories/PropsOrbit.v
theories/LinearResponse.v
theories/ThreadResponse.v
theories/ThreadStress.v
theories/PropsThreadStress.v
theories/GpuThreads.v
theories/GpuReduce.v
theories/GpuReduceProofs.v
theories/GpuHostProofs.v
theories/GpuOpsProofs.v
theories/GpuResults.v
theories/PropsGpuReduce.v
theories/GpuMesh.v
theories/GpuMeshProofs.v
theories/PropsGpuMesh.v
theories/GpuGrid.v
theories/GpuWaveSpec.v
theories/GpuWave.v
theories/GpuWaveProofs.v
theories/GpuWaveHost.v
theories/GpuWaveCache.v
theories/PropsGpuWave.v
theories/GpuKernel.v
theories/VecOp.v
theories/VecOpSpec.v
theories/VecOpProofs.v
theories/VecOpValue.v
theories/VecOpKernel.v
theories/VecOpCall.v
theories/PropsVecOp.v
theories/GpuBlock.v
theories/GpuRep.v
theories/GpuBlockProofs.v
theories/GpuBlockRuns.v
theories/GpuPolymer.v
theories/GpuPolymerSpec.v
theories/GpuPolymerProofs.v
theories/PropsGpuPolymer.v
theories/DevArray.v
theories/DevArraySpec.v
theories/DevArrayProofs.v
theories/DevArrayRuns.v
theories/PropsDevArray.v
theories/PropsDevPropagator.v
theories/IntraSpec.v
theories/Intra.v
theories/IntraProofs.v
theories/IntraSums.v
theories/PropsIntra.v
theories/RespTree.v
theories/RespBead.v
theories/RespPolymer.v
theories/Response.v
theories/PropsResponse.v
theories/Deriv.v
theories/PropsDeriv.v
theories/OrderParam.v
theories/OrderParamProofs.v
theories/PropsOrderParam.v
theories/HostOps.v
theories/PropsHostOps.v
theories/LinearPath.v
theories/PropsLinearPath.v
theories/R1dFieldIo.v
theories/R1dFieldIoProofs.v
theories/PropsR1dFieldIo.v
theories/R1dThermo.v
theories/PropsR1dThermo.v
theories/NrIterator.v
theories/PropsNrIterator.v
theories/Trajectory.v
theories/PropsTrajectory.v
