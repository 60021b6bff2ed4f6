-Q theories Verif
theories/Base.v
theories/Spec_Fock.v
theories/FockFacts.v
theories/M_Operator.v
theories/Pf_Operator.v
theories/M_Commutator.v
theories/Pf_Commutator.v
theories/Spec_Algebra.v
theories/Pf_Algebra.v
theories/Pf_Algebra2.v
theories/Instances.v
theories/P_Algebra.v
theories/P_Algebra2.v
theories/M_Lattice.v
theories/Spec_Lattice.v
theories/Pf_Lattice.v
theories/P_Lattice.v
theories/M_LatticeReal.v
theories/Spec_LatticeReal.v
theories/Pf_LatticeReal.v
theories/P_LatticeReal.v
theories/M_Basis.v
theories/Pf_Basis.v
theories/P_Basis.v
theories/M_Matrix.v
theories/Spec_Matrix.v
theories/Pf_Matrix.v
theories/Pf_Matrix2.v
theories/Pf_Trace.v
theories/Pf_Wick.v
theories/Pf_Liouville.v
theories/Pf_MatrixEntry.v
theories/Pf_Projection.v
theories/P_Matrix.v
theories/P_Rectangle.v
theories/P_Rectangle2.v
theories/M_KineticNo.v
theories/P_KineticNo.v
theories/Pf_Triplet.v
theories/P_Triplet.v
theories/Spec_NormalOrder.v
theories/Pf_NormalOrder.v
theories/P_NormalOrder.v
theories/Spec_Momentum.v
theories/Pf_Momentum.v
theories/P_Momentum.v
theories/Ex_Matrix.v
theories/Ex_NormalOrder.v
theories/M_Number.v
theories/M_MatrixCheck.v
theories/P_Number.v
theories/P_MatrixCheck.v
theories/M_Ode.v
theories/Spec_Ode.v
theories/Pf_Ode.v
theories/P_Ode.v
theories/Ex_Ode.v
theories/Spec_Dynamics.v
theories/P_Dynamics.v
theories/P_DynamicsKinetic.v
theories/M_TimeLoop.v
theories/Spec_TimeLoop.v
theories/P_TimeLoop.v
theories/M_Dispersion.v
theories/P_Dispersion.v
theories/M_DispersionProgram.v
theories/P_DispersionProgram.v
theories/M_Expectation.v
theories/Spec_Expectation.v
theories/P_Expectation.v
theories/M_OpenMP.v
theories/Spec_OpenMP.v
theories/Pf_OpenMP.v
theories/M_SiteOccupation.v
theories/Pf_SiteOccupation.v
theories/Spec_Slater.v
theories/Pf_Slater.v
theories/Pf_SlaterHub.v
theories/P_SiteOccupation.v
theories/M_FermiJump.v
theories/Pf_FermiJump.v
theories/Spec_Jump.v
theories/Pf_Jump.v
theories/P_FermiJump.v
theories/P_Positive.v
theories/Ex_SiteOccupation.v
theories/M_FermiSea.v
theories/Pf_FermiSea.v
theories/P_FermiSea.v
theories/M_NonVanishing.v
theories/Pf_FockDiag.v
theories/Spec_FermiSea.v
theories/Pf_NonVanishing.v
theories/P_NonVanishing.v
theories/Ex_FermiSea.v
theories/M_Text.v
theories/Spec_Text.v
theories/Pf_Text.v
theories/P_Text.v
theories/M_Io.v
theories/Pf_Io.v
theories/P_Io.v
theories/P_Checkpoint.v
theories/M_Cli.v
theories/Pf_Cli.v
theories/P_Cli.v
theories/Ex_Io.v
theories/Pf_Stability.v
theories/Pf_Conserved.v
theories/Spec_Stability.v
theories/Pf_Stability2.v
theories/Pf_Stability3.v
theories/Pf_Solution.v
theories/P_Stability.v
theories/P_Heisenberg.v
theories/M_Rounding.v
theories/Spec_Rounding.v
theories/Pf_Rounding.v
theories/Pf_Rounding2.v
theories/Pf_Rounding3.v
theories/Pf_Rounding4.v
theories/Pf_Rounding5.v
theories/M_Double.v
theories/Pf_Double.v
theories/P_Rounding.v
theories/M_LatticeDouble.v
theories/M_DoubleDispersion.v
theories/Spec_DoubleDispersion.v
theories/Pf_PiDigits.v
theories/M_RoundedMeasurement.v
theories/Pf_Threads.v
theories/Pf_RoundedSum.v
theories/Pf_RoundedMeasurement.v
theories/Pf_RoundedMeasurement2.v
theories/Pf_RoundedMeasurement3.v
theories/Pf_RoundedMeasurement4.v
theories/Pf_Threads2.v
theories/Spec_RoundedMeasurement.v
theories/Pf_RoundedMeasurement5.v
theories/P_RoundedMeasurement.v
theories/P_RoundedMeasurement2.v
theories/P_RoundedMeasurement3.v
theories/P_RoundedMeasurement4.v
theories/M_DoublePrograms.v
theories/Spec_DoublePrograms.v
theories/Pf_DoublePrograms.v
theories/Pf_DoubleTime.v
theories/P_DoublePrograms.v
theories/P_DoublePrograms2.v
theories/Pf_DoubleJump.v
theories/M_DoubleJumpPrograms.v
theories/Spec_DoubleJump.v
theories/P_DoubleJumpPrograms.v
theories/P_DoubleJumpPrograms2.v
theories/M_RoundedJump.v
theories/Pf_RoundedJump.v
theories/Pf_JumpSums.v
theories/Pf_JumpError.v
theories/Spec_RoundedJump.v
theories/P_RoundedJump.v
theories/P_RoundedJump2.v
theories/P_LatticeDouble.v
theories/P_DoubleDispersion.v
theories/M_DoubleDispersionProgram.v
theories/P_DoubleDispersionProgram.v
theories/M_DoubleTrivial.v
theories/M_TheoryProgram.v
theories/M_DoubleExpectation.v
theories/M_DoubleMain.v
theories/Spec_DoubleMain.v
theories/P_DoubleMain.v
theories/P_DoubleMain2.v
theories/Spec_DoubleExpectation.v
theories/Pf_DoubleExpectation.v
theories/P_DoubleExpectation.v
theories/P_DoubleExpectation2.v
theories/Pf_BesselNorm.v
theories/Spec_TheoryProgram.v
theories/Pf_TheoryProgram.v
theories/Pf_TheoryProgram2.v
theories/Pf_TheoryProgram3.v
theories/P_TheoryProgram.v
theories/P_DoubleTrivial.v
theories/M_DoubleMomentum.v
theories/M_Platform.v
theories/Pf_DoubleMomentum.v
theories/Pf_Perturbation.v
theories/Pf_DoubleMomentum2.v
theories/Pf_DoubleMomentum3.v
theories/Pf_DoubleMomentum4.v
theories/Pf_DoubleMomentum5.v
theories/Pf_DoubleMomentum6.v
theories/Pf_DoubleMomentum7.v
theories/Pf_DoubleMomentum8.v
theories/P_DoubleMomentum.v
theories/P_Platform.v
theories/M_MatrixLog.v
theories/P_MatrixLog.v
theories/Ex_Stability.v
theories/Spec_Bessel.v
theories/Pf_Bessel.v
theories/Spec_Theory.v
theories/M_Theory.v
theories/Pf_Theory.v
theories/Pf_Theory2.v
theories/Pf_Theory3.v
theories/P_Theory.v
theories/Ex_Theory.v
theories/M_Print.v
theories/Spec_Print.v
theories/P_Print.v
theories/M_Index.v
theories/P_Index.v
theories/Ex_Print.v
theories/M_Commutators.v
theories/Spec_Commutators.v
theories/P_Commutators.v
theories/Ex_Commutators.v
theories/Pf_Arrow.v
theories/Spec_ParticleNumber.v
theories/P_ParticleNumber.v
theories/Spec_MomentumProgram.v
theories/M_MomentumProgram.v
theories/Pf_MomentumProgram.v
theories/P_MomentumProgram.v
theories/Ex_MomentumProgram.v
theories/Spec_Trivial.v
theories/M_Trivial.v
theories/P_Trivial.v
theories/Spec_EigenIo.v
theories/M_EigenIo.v
theories/Pf_EigenIo.v
theories/P_EigenIo.v
theories/Ex_EigenIo.v
theories/M_Alias.v
theories/P_Alias.v
theories/M_CommutateAlias.v
theories/Spec_CommutateAlias.v
theories/P_CommutateAlias.v
theories/Spec_Programs.v
theories/M_Programs.v
theories/Pf_Programs.v
theories/Pf_Programs2.v
theories/P_Programs.v
theories/P_Occupation.v
theories/P_OccupationFree.v
theories/P_Atomic.v
theories/P_JumpLimits.v
theories/Spec_Symmetry.v
theories/Pf_Symmetry.v
theories/P_Symmetry.v
theories/Spec_ParticleHole.v
theories/P_ParticleHole.v
theories/P_ParticleHoleDouble.v
theories/P_SignDouble.v
theories/P_AttractionDouble.v
theories/Spec_Parameters.v
theories/P_Parameters.v
theories/P_MomentumLimits.v
theories/P_TheoryValue.v
theories/Spec_LightCone.v
theories/Pf_LightCone.v
theories/P_LightCone.v
theories/Spec_Window.v
theories/Pf_Window.v
theories/P_Window.v
theories/Spec_Grow.v
theories/Pf_Grow.v
theories/P_Grow.v
theories/P_LightConeDouble.v
theories/Spec_Truncation.v
theories/Pf_Truncation.v
theories/P_Truncation.v
theories/P_TruncationDouble.v
theories/P_LimitsDouble.v
theories/P_AtomicOperator.v
theories/P_OccupationDouble.v
theories/P_ShippedAverages.v
theories/M_JumpPrograms.v
theories/Spec_JumpPrograms.v
theories/Pf_JumpPrograms.v
theories/P_JumpPrograms.v
theories/Ex_Programs.v
theories/Ex_JumpPrograms.v
theories/Spec_WindowSquare.v
theories/P_WindowSquare.v
theories/P_WindowDouble.v
theories/Spec_Closure.v
theories/P_Closure.v
theories/P_TruncationStrict.v
theories/M_Ostream.v
theories/Spec_Numeral.v
theories/Pf_Ostream.v
theories/P_Ostream.v
theories/M_OutputFile.v
theories/Spec_Table.v
theories/P_OutputFile.v
theories/P_OutputPrograms.v
theories/P_OutputPrograms2.v
theories/P_OutputTrivial.v
theories/P_OutputJump.v
theories/P_OutputMomentum.v
theories/Pf_Continuity.v
theories/P_Continuity.v
theories/M_OptionValue.v
theories/P_ContinuityDouble.v
theories/P_ContinuityKinetic.v
theories/P_ContinuityTime.v
theories/P_ContinuityFile.v
