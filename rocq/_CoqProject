-Q theories Verif
theories/Adjoint.v
theories/AdjointDeriv.v
theories/AdjointEx.v
theories/Assembly.v
theories/BCManager.v
theories/BoundaryElim.v
theories/Cli.v
theories/Conductors.v
theories/Contact.v
theories/ContactEx.v
theories/ContactNewton.v
theories/ContactSolve.v
theories/ContactSolveEx.v
theories/Csr.v
theories/DofCodec.v
theories/Domains.v
theories/Driver.v
theories/Dual.v
theories/ElementEssential.v
theories/Energy.v
theories/EnergyEx.v
theories/EnergyHeat.v
theories/EnergyHeatEx.v
theories/EnergyRun.v
theories/EnergySolid.v
theories/EqSolver.v
theories/FEVector.v
theories/FiniteJ2.v
theories/FiniteJ2Ex.v
theories/FiniteJ2Exact.v
theories/FiniteJ2Facts.v
theories/FiniteJ2Main.v
theories/Fit.v
theories/FitEx.v
theories/FrameEx.v
theories/FrameResidual.v
theories/FromInput.v
theories/FunctionalEx.v
theories/FunctionalGrad.v
theories/FunctionalModel.v
theories/FunctionalTotal.v
theories/Hcurl.v
theories/HcurlFacts.v
theories/HcurlHex.v
theories/HcurlSegment.v
theories/HcurlSum.v
theories/HeatBack.v
theories/HeatBackEx.v
theories/HeatDecay.v
theories/HeatDecayEx.v
theories/HeatGradient.v
theories/HeatMesh.v
theories/HeatMeshEx.v
theories/HeatUnique.v
theories/Implicit.v
theories/ImplicitEx.v
theories/ImplicitRuns.v
theories/Inputs.v
theories/IsoDeriv.v
theories/IsoEig.v
theories/IsoEigDeriv.v
theories/IsoFun.v
theories/Isotropic.v
theories/IsotropicProof.v
theories/JointRate.v
theories/Kernels.v
theories/LU.v
theories/LUDeriv.v
theories/LUSpd.v
theories/Ledger.v
theories/LedgerAll.v
theories/LedgerDisk.v
theories/LexIds.v
theories/LinearRun.v
theories/LinearRunEx.v
theories/LiquidCrystal.v
theories/LiquidCrystalEx.v
theories/MatAlg.v
theories/MatInputs.v
theories/MatSqrt.v
theories/MaterialEx.v
theories/MaterialFacts.v
theories/MaterialTest.v
theories/MaterialTestEx.v
theories/Materials.v
theories/Mesh.v
theories/MeshInput.v
theories/MeshInputEx.v
theories/MeshInputFacts.v
theories/MeshRegion.v
theories/Modules.v
theories/ModulesEx.v
theories/ModulesFacts.v
theories/ModulesRun.v
theories/MotionApart.v
theories/MotionApartEx.v
theories/MotionBack.v
theories/MotionBackEx.v
theories/MotionGradient.v
theories/MotionUnique.v
theories/MotionUniqueEx.v
theories/Names.v
theories/Newton.v
theories/NewtonEx.v
theories/NewtonLinear.v
theories/NewtonLinearEx.v
theories/Ode.v
theories/OdeEx.v
theories/P_Adjoint.v
theories/P_BCs.v
theories/P_BoundaryElim.v
theories/P_Cli.v
theories/P_Conductors.v
theories/P_Contact.v
theories/P_ContactSolve.v
theories/P_Dofs.v
theories/P_Domains.v
theories/P_Driver.v
theories/P_Dual.v
theories/P_ElementEssential.v
theories/P_Energy.v
theories/P_EnergyHeat.v
theories/P_EqSolver.v
theories/P_FEVector.v
theories/P_FiniteJ2.v
theories/P_Fit.v
theories/P_Frame.v
theories/P_FromInput.v
theories/P_Functional.v
theories/P_Hcurl.v
theories/P_HeatBack.v
theories/P_HeatDecay.v
theories/P_HeatUnique.v
theories/P_Implicit.v
theories/P_Inputs.v
theories/P_Isotropic.v
theories/P_Ledger.v
theories/P_LinearRun.v
theories/P_LiquidCrystal.v
theories/P_MaterialTest.v
theories/P_Materials.v
theories/P_Mesh.v
theories/P_MeshInput.v
theories/P_Modules.v
theories/P_MotionApart.v
theories/P_MotionBack.v
theories/P_MotionUnique.v
theories/P_Newton.v
theories/P_NewtonLinear.v
theories/P_Ode.v
theories/P_Parallel.v
theories/P_ParallelRuns.v
theories/P_PatchTest.v
theories/P_PetscAdapters.v
theories/P_Piola.v
theories/P_Plasticity.v
theories/P_Polys.v
theories/P_Pressure.v
theories/P_QBuffer.v
theories/P_Quadrature.v
theories/P_QuasiAdjoint.v
theories/P_QuasiStatic.v
theories/P_ScalarSolve.v
theories/P_ShapeAware.v
theories/P_Shapes.v
theories/P_StateMgr.v
theories/P_SteadyBack.v
theories/P_StiffBody.v
theories/P_StoredEnergy.v
theories/P_SumFactor.v
theories/P_Summary.v
theories/P_SymEig.v
theories/P_SymmetricTangent.v
theories/P_Tensor.v
theories/P_ThermoRun.v
theories/P_Thermomech.v
theories/P_Traced.v
theories/P_TracedHeat.v
theories/P_TracedSolid.v
theories/P_Traces.v
theories/P_Transient.v
theories/P_Variant.v
theories/P_WeakForm.v
theories/ParallelEx.v
theories/ParallelFacts.v
theories/ParallelMatrix.v
theories/ParallelModel.v
theories/ParallelQoiEx.v
theories/ParallelSum.v
theories/PatchEx.v
theories/PatchGeom.v
theories/PatchHex.v
theories/PatchLoad.v
theories/PatchLoadEx.v
theories/PatchMesh.v
theories/PatchSkin.v
theories/PatchTest.v
theories/PetscAdapters.v
theories/PetscAdaptersEx.v
theories/PetscAdaptersUse.v
theories/Piola.v
theories/Plasticity.v
theories/PlasticityEx.v
theories/Polys.v
theories/Prelude.v
theories/Pressure.v
theories/PressureBody.v
theories/PressureEx.v
theories/PressureRun.v
theories/ProgramBack.v
theories/ProgramEx.v
theories/ProgramRuns.v
theories/ProgramSizes.v
theories/Programs.v
theories/QBuffer.v
theories/QBufferEx.v
theories/QuadTables.v
theories/Quadrature.v
theories/QuasiAdjoint.v
theories/QuasiAdjointEx.v
theories/QuasiBalance.v
theories/QuasiEx.v
theories/QuasiGradient.v
theories/QuasiNewton.v
theories/QuasiStatic.v
theories/QuasiSupportEx.v
theories/QuasiTrust.v
theories/Restriction.v
theories/Ring.v
theories/ScalarSolve.v
theories/ScalarSolveDeriv.v
theories/ShapeAware.v
theories/ShapeDefs.v
theories/ShapeElem.v
theories/ShapeFacts.v
theories/ShapeGrad.v
theories/ShapeTensor.v
theories/Simplex.v
theories/Spectral.v
theories/StateMgr.v
theories/StateMgrEx.v
theories/SteadyBack.v
theories/SteadyBackEx.v
theories/StiffBody.v
theories/StiffEx.v
theories/StiffMesh.v
theories/StoredEnergy.v
theories/StoredEnergyEx.v
theories/StoredEnergyUse.v
theories/SumFactor.v
theories/Summary.v
theories/SummaryRun.v
theories/Sums.v
theories/SymEig.v
theories/SymEigEx.v
theories/SymEigFacts.v
theories/SymEigMain.v
theories/SymEigRotate.v
theories/SymEigStuck.v
theories/SymmetricAssembled.v
theories/SymmetricEx.v
theories/SymmetricMaterials.v
theories/SymmetricTangent.v
theories/Tensor.v
theories/TensorEx.v
theories/ThermoRun.v
theories/ThermoRunEx.v
theories/Thermomech.v
theories/Timestep.v
theories/Traced.v
theories/TracedEx.v
theories/TracedHeat.v
theories/TracedHeatEx.v
theories/TracedInv.v
theories/TracedSolid.v
theories/TracedSolidEx.v
theories/Traces.v
theories/TracesMesh.v
theories/TracesTurn.v
theories/Transient.v
theories/TransientEx.v
theories/TransientFacts.v
theories/TrustLoop.v
theories/TrustRegion.v
theories/Variant.v
theories/WeakForm.v
theories/WeakFormEx.v
theories/WeakFormFacts.v
theories/WeakFormPhysics.v
theories/WeakFormWork.v
