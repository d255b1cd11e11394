-Q theories Verif
theories/Num.v
theories/Arr.v
theories/ArrFacts.v
theories/Fe.v
theories/Problem.v
theories/BatchFacts.v
theories/SpecAssembly.v
theories/AssemblyFacts.v
theories/ProblemFacts.v
theories/ResidualFacts.v
theories/DerivFacts.v
theories/AgreeFacts.v
theories/SolverBc.v
theories/SpecBc.v
theories/Properties_assembly.v
theories/Examples_assembly.v
theories/BcFacts.v
theories/BcMain.v
theories/Properties_bc.v
theories/Examples_bc.v
theories/Basis.v
theories/SpecBasis.v
theories/BasisFacts.v
theories/SpecFe.v
theories/FeFacts.v
theories/GeomFacts.v
theories/SpecGeom.v
theories/MeasureFacts.v
theories/NansonFacts.v
theories/SpecSelect.v
theories/SelectFacts.v
theories/FacetFacts.v
theories/Properties_basis.v
theories/Properties_fe.v
theories/Examples_fe.v
theories/SpecWeak.v
theories/KernelFacts.v
theories/BalanceFacts.v
theories/Init.v
theories/SpecInit.v
theories/InitFacts.v
theories/Properties_kernel.v
theories/Examples_kernel.v
theories/XNum.v
theories/PyDict.v
theories/Options.v
theories/OptionsFacts.v
theories/LinSolve.v
theories/Newton.v
theories/SpecNewton.v
theories/NewtonFacts.v
theories/Amgx.v
theories/SolverCache.v
theories/SpecSolver.v
theories/ConfigFacts.v
theories/CacheFacts.v
theories/SolverFacts.v
theories/ResolveFacts.v
theories/Examples_solver.v
theories/Properties_solver.v
theories/ArcLength.v
theories/SpecArc.v
theories/ArcFacts.v
theories/ArcMain.v
theories/ArcBc.v
theories/Examples_arc.v
theories/Properties_arc.v
theories/DynRelax.v
theories/SpecRelax.v
theories/RelaxFacts.v
theories/RelaxMain.v
theories/Solver.v
theories/SolverMain.v
theories/Examples_relax.v
theories/Properties_relax.v
theories/Adjoint.v
theories/SpecAdjoint.v
theories/AdjointFacts.v
theories/AdjointMain.v
theories/Examples_adjoint.v
theories/Properties_adjoint.v
theories/Mma.v
theories/SpecMma.v
theories/MmaFacts.v
theories/MmaMain.v
theories/MmaKkt.v
theories/MmaOpt.v
theories/SpecOpt.v
theories/OptFacts.v
theories/Examples_mma.v
theories/Properties_mma.v
theories/Mesh.v
theories/SpecMesh.v
theories/MeshFacts.v
theories/MeshMain.v
theories/MeshFe.v
theories/Properties_mesh.v
theories/Utils.v
theories/SpecUtils.v
theories/UtilsFacts.v
theories/Properties_utils.v
theories/SpecPatch.v
theories/PatchFacts.v
theories/Properties_patch.v
theories/Periodic.v
theories/SpecPeriodic.v
theories/PeriodicFacts.v
theories/PeriodicMain.v
theories/Properties_periodic.v
theories/Quiet.v
theories/SpecQuiet.v
theories/QuietFacts.v
theories/QuietMain.v
theories/Properties_quiet.v
theories/Thermal.v
theories/SpecThermal.v
theories/ThermalFacts.v
theories/ThermalMain.v
theories/Properties_thermal.v
theories/SpecEnergy.v
theories/EnergyFacts.v
theories/Elastic.v
theories/ElasticFacts.v
theories/SpecElastic.v
theories/ElasticMain.v
theories/Properties_energy.v
theories/Examples_energy.v
theories/Dynamics.v
theories/SpecDynamics.v
theories/DynamicsFacts.v
theories/DynamicsMain.v
theories/DynamicsEnergy.v
theories/DynamicsBox.v
theories/DynamicsStable.v
theories/Properties_dynamics.v
theories/Plasticity.v
theories/SpecPlasticity.v
theories/PlasticityFacts.v
theories/PlasticityMain.v
theories/Properties_plasticity.v
theories/Lagrangian.v
theories/SpecLagrangian.v
theories/LagrangianFacts.v
theories/LagrangianMain.v
theories/LagrangianLoop.v
theories/LagrangianBox.v
theories/Properties_lagrangian.v
theories/UniversalFacts.v
theories/LinAlg.v
theories/Wave.v
theories/SpecWave.v
theories/WaveFacts.v
theories/WaveMain.v
theories/WaveSolve.v
theories/Properties_wave.v
theories/SpecSolve.v
theories/SolveFacts.v
theories/SolveBox.v
theories/Properties_solve.v
theories/SpecLift.v
theories/LiftFacts.v
theories/SpecLinear.v
theories/LinearFacts.v
theories/LinearElastic.v
theories/Properties_linear.v
theories/SpecPosed.v
theories/PosedFacts.v
theories/AffineFacts.v
theories/DiffusionFacts.v
theories/FieldFacts.v
theories/PosedMain.v
theories/Properties_posed.v
theories/SpecCoupled.v
theories/CoupledFacts.v
theories/CoupledLinear.v
theories/Stokes.v
theories/SpecStokes.v
theories/StokesFacts.v
theories/StokesMain.v
theories/StokesBc.v
theories/StokesEnd.v
theories/Properties_stokes.v
theories/ThermoMech.v
theories/SpecThermoMech.v
theories/ThermoMechFacts.v
theories/ThermoMechMain.v
theories/ThermoMechRun.v
theories/ThermoMechTri.v
theories/ThermoMechEnd.v
theories/Properties_thermomech.v
theories/Eigen.v
theories/SpecEigen.v
theories/EigenFacts.v
theories/EigenMain.v
theories/EigenMore.v
theories/Properties_eigen.v
theories/SpecMonotone.v
theories/MonoFacts.v
theories/MonoMain.v
theories/MonoUse.v
theories/Properties_monotone.v
theories/Fracture.v
theories/SpecFracture.v
theories/FractureFacts.v
theories/FractureMore.v
theories/FractureMain.v
theories/FractureLoop.v
theories/FractureUse.v
theories/Properties_fracture.v
theories/NodalStress.v
theories/SpecNodal.v
theories/NodalFacts.v
theories/Properties_nodal.v
theories/FinPlast.v
theories/SpecFinPlast.v
theories/FinPlastFacts.v
theories/FinPlastMain.v
theories/FinPlastUse.v
theories/Properties_finplast.v
theories/CrystalPlast.v
theories/SpecCrystal.v
theories/CrystalFacts.v
theories/CrystalSolve.v
theories/CrystalDeriv.v
theories/CrystalMain.v
theories/CrystalExact.v
theories/CrystalCase.v
theories/CrystalUse.v
theories/Properties_crystal.v
theories/SpecSecond.v
theories/SecondFacts.v
theories/Properties_second.v
theories/Quadrature.v
theories/SpecQuad.v
theories/QuadFacts.v
theories/Properties_quad.v
theories/Robin.v
theories/SpecRobin.v
theories/RobinFacts.v
theories/Properties_robin.v
theories/Parallel.v
theories/SpecParallel.v
theories/ParallelFacts.v
theories/ParallelMain.v
theories/ParallelGrid.v
theories/Properties_parallel.v
theories/Dendrite.v
theories/SpecDendrite.v
theories/DendriteFacts.v
theories/DendriteMain.v
theories/DendriteRun.v
theories/DendriteAngle.v
theories/Properties_dendrite.v
theories/DendriteEx.v
theories/SpecDendriteEx.v
theories/DendriteExFacts.v
theories/DendriteExMain.v
theories/DendriteExRun.v
theories/DendriteExRect.v
theories/Properties_dendrite_ex.v
theories/DendriteFd.v
theories/SpecDendriteFd.v
theories/DendriteFdFacts.v
theories/DendriteFdMain.v
theories/DendriteFdRef.v
theories/Properties_dendrite_fd.v
theories/Laser.v
theories/SpecLaser.v
theories/LaserFacts.v
theories/LaserMain.v
theories/LaserHeat.v
theories/LaserBox.v
theories/LaserEnd.v
theories/LaserRef.v
theories/Properties_laser.v
theories/HyperElastic.v
theories/SpecHyper.v
theories/HyperFacts.v
theories/HyperMain.v
theories/HyperUse.v
theories/HyperEnd.v
theories/Properties_hyper.v
theories/Contact.v
theories/SpecContact.v
theories/ContactRot.v
theories/ContactMain.v
theories/ContactMore.v
theories/ContactRun.v
theories/ContactEnd.v
theories/Spectral3.v
theories/ContactMet.v
theories/Properties_contact.v
theories/DiffMesh.v
theories/SpecDiffMesh.v
theories/DiffMeshMain.v
theories/DiffMeshUniq.v
theories/DiffMeshRun.v
theories/DiffMeshEnd.v
theories/DiffMeshPick.v
theories/DiffMeshFd.v
theories/DiffMeshMet.v
theories/Properties_diffmesh.v
theories/SpecErrorNorm.v
theories/Complete.v
theories/CompleteMain.v
theories/ErrorNorm.v
theories/ErrorNormMain.v
theories/ErrorNormRun.v
theories/ErrorNormMet.v
theories/Properties_errornorm.v
theories/Volume.v
theories/SpecVolume.v
theories/VolumeMain.v
theories/VolumeEnd.v
theories/VolumeMet.v
theories/VolumeSpin.v
theories/Properties_volume.v
theories/ArcDemo.v
theories/SpecArcDemo.v
theories/ArcDemoMain.v
theories/ArcDemoRun.v
theories/Properties_arcdemo.v
theories/TwoVars.v
theories/SpecTwoVars.v
theories/TwoVarsMain.v
theories/TwoVarsEnd.v
theories/TwoVarsBox.v
theories/Properties_twovars.v
theories/Surrogate.v
theories/SpecSurrogate.v
theories/SurrogateMain.v
theories/SurrogateMore.v
theories/Properties_surrogate.v
theories/FinLoad.v
theories/SpecFinLoad.v
theories/FinLoadMain.v
theories/Properties_finload.v
theories/SensStress.v
theories/SensMain.v
theories/SpecSens.v
theories/SensRun.v
theories/SensMet.v
theories/SensHist.v
theories/Properties_sens.v
theories/Beam.v
theories/SpecBeam.v
theories/BeamMain.v
theories/BeamRun.v
theories/BeamEnd.v
theories/BeamMet.v
theories/BeamDisp.v
theories/Properties_beam.v
theories/BoundIndex.v
theories/SpecBound.v
theories/BoundMain.v
theories/Properties_bound.v
theories/Serendip.v
theories/SpecSerendip.v
theories/SerendipMain.v
theories/Properties_serendip.v
theories/RelaxBeam.v
theories/RelaxBeamMain.v
theories/Properties_relaxbeam.v
