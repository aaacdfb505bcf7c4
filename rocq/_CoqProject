-Q theories Verif
theories/Base/Outcome.v
theories/Model/Traits.v
theories/Model/Polynomial.v
theories/Spec/Ring.v
theories/Spec/Sums.v
theories/Proofs/RingTheory.v
theories/Spec/Polynomial.v
theories/Proofs/PolynomialProofs.v
theories/Proofs/SigOf.v
theories/Proofs/PolynomialRing.v
theories/Proofs/IntegerRing.v
theories/Proofs/PolynomialEq.v
theories/Props/PolynomialProps.v
theories/Model/Complex.v
theories/Spec/Complex.v
theories/Proofs/ComplexProofs.v
theories/Model/RealInstance.v
theories/Proofs/RealRing.v
theories/Proofs/ComplexReal.v
theories/Props/ComplexProps.v
theories/Props/ComplexFunProps.v
theories/Props/ComplexBranchProps.v
theories/Base/Array.v
theories/Model/SVector.v
theories/Model/SMatrix.v
theories/Spec/Agree.v
theories/Spec/Matrix.v
theories/Spec/Writes.v
theories/Proofs/SMatrixProofs.v
theories/Props/SVectorProps.v
theories/Props/SMatrixProps.v
theories/Base/Usize.v
theories/Model/DVector.v
theories/Model/DMatrix.v
theories/Model/DExpr.v
theories/Spec/DExpr.v
theories/Proofs/DExprProofs.v
theories/Spec/Early.v
theories/Proofs/EarlyProofs.v
theories/Proofs/DStore.v
theories/Proofs/DVectorProofs.v
theories/Spec/WritesN.v
theories/Props/DVectorProps.v
theories/Spec/DMatrix.v
theories/Spec/DStore.v
theories/Proofs/DMatrixProofs.v
theories/Props/DExprProps.v
theories/Props/DMatrixProps.v
theories/Props/DStoreProps.v
theories/Base/Wp.v
theories/Model/DiffEvo.v
theories/Model/Float.v
theories/Spec/DiffEvo.v
theories/Proofs/DiffEvoProofs.v
theories/Proofs/DiffEvoSim.v
theories/Proofs/DiffEvoMore.v
theories/Proofs/DiffEvoTerm.v
theories/Proofs/FloatOrder.v
theories/Props/DiffEvoProps.v
theories/Model/Ackley.v
theories/Proofs/FloatComm.v
theories/Props/AckleyProps.v
theories/Base/Sim.v
theories/Model/Int.v
theories/Spec/Int.v
theories/Spec/Nest.v
theories/Proofs/RingSim.v
theories/Proofs/PolyPartial.v
theories/Proofs/IntProofs.v
theories/Props/IntProps.v
theories/Props/NestProps.v
theories/Spec/FloatErr.v
theories/Proofs/FloatErr.v
theories/Proofs/FloatInt.v
theories/Proofs/FloatRange.v
theories/Proofs/FloatSpecial.v
theories/Props/FloatProps.v
theories/Props/FloatRangeProps.v
theories/Spec/Bounded.v
theories/Proofs/Bounded.v
theories/Proofs/Exact.v
theories/Props/BoundedProps.v
theories/Spec/DiffEvoMore.v
theories/Proofs/DiffEvoGrowth.v
theories/Props/DiffEvoMoreProps.v
theories/Spec/Roots.v
theories/Proofs/PolyRoots.v
theories/Props/PolyRootsProps.v
theories/Model/Unwind.v
theories/Spec/Unwind.v
theories/Proofs/Unwind.v
theories/Props/UnwindProps.v
theories/Spec/Equality.v
theories/Proofs/Equality.v
theories/Props/EqualityProps.v
theories/Props/FloatExactProps.v
theories/Proofs/Paths.v
theories/Props/PathsProps.v
theories/Proofs/Geometry.v
theories/Props/GeometryProps.v
theories/Proofs/PolyExact.v
theories/Props/FloatPolyProps.v
theories/Props/FloatNanProps.v
theories/Proofs/PiE.v
theories/Proofs/FloatRound.v
theories/Props/AckleyFloatProps.v
theories/Proofs/FloatSqrt.v
theories/Proofs/SqrtSized.v
theories/Props/FloatSqrtProps.v
theories/Props/SqrtAnyProps.v
theories/Props/FloatDivProps.v
theories/Props/FloatFunProps.v
theories/Model/DEffect.v
theories/Spec/DEffect.v
theories/Proofs/DEffect.v
theories/Props/DEffectProps.v
theories/Spec/DiffEvoRandom.v
theories/Proofs/DiffEvoRandom.v
theories/Proofs/DonorCount.v
theories/Props/DiffEvoRandomProps.v
theories/Spec/Formula.v
theories/Proofs/Formula.v
theories/Props/FormulaProps.v
theories/Spec/DiffEvoEquiv.v
theories/Proofs/DiffEvoEquiv.v
theories/Props/DiffEvoEquivProps.v
theories/Proofs/FloatMono.v
theories/Props/FloatMonoProps.v
theories/Props/FloatSignProps.v
theories/Proofs/FloatReal.v
theories/Props/FloatRealProps.v
theories/Proofs/Backward.v
theories/Props/BackwardProps.v
theories/Spec/ComplexErr.v
theories/Proofs/ComplexErr.v
theories/Props/ComplexErrProps.v
theories/Props/DiffEvoInvProps.v
theories/Spec/FloatScale.v
theories/Proofs/FloatScale.v
theories/Props/FloatScaleProps.v
theories/Spec/Substitution.v
theories/Spec/Interchange.v
theories/Proofs/Substitution.v
theories/Proofs/Interchange.v
theories/Props/SubstitutionProps.v
theories/Props/InterchangeProps.v
theories/Spec/Calculus.v
theories/Proofs/Calculus.v
theories/Proofs/CalculusPoly.v
theories/Props/CalculusProps.v
theories/Tests/RepoTests.v
theories/Proofs/SqrtTest.v
theories/Proofs/SqrtTestFloat.v
theories/Proofs/SqrtTestFloat2.v
theories/Props/SqrtTestProps.v
theories/Props/DocExampleProps.v
theories/Spec/ErrorBars.v
theories/Proofs/ErrorBars.v
theories/Props/ErrorBarsProps.v
theories/Spec/Taint.v
theories/Props/TaintProps.v
theories/Proofs/TrigTest.v
theories/Props/TrigTestProps.v
theories/Proofs/LnTest.v
theories/Props/LnTestProps.v
theories/Proofs/ComplexUndo.v
theories/Props/ComplexUndoProps.v
theories/Proofs/ExpLn.v
theories/Props/ExpLnProps.v
theories/Proofs/ComplexBackward.v
theories/Props/ComplexBackwardProps.v
theories/Proofs/NoOverflow.v
theories/Props/NoOverflowProps.v
theories/Props/HermitianProps.v
theories/Props/CertifyProps.v
theories/Props/FloatGeometryProps.v
theories/Props/DiffEvoFloatProps.v
theories/Spec/CTan.v
theories/Proofs/TanTest.v
theories/Props/TanTestProps.v
theories/Props/FloatReflectProps.v
theories/Props/PolarProps.v
theories/Props/AddFunProps.v
theories/Props/GrowthProps.v
theories/Props/TanRangeProps.v
theories/Props/SqrtRangeProps.v
theories/Props/ExpRangeProps.v
theories/Props/SqrtLawProps.v
theories/Props/LnLawProps.v
theories/Props/ComplexTriangleProps.v
theories/Proofs/DivBelow.v
theories/Props/TanZeroProps.v
