-Q theories Verif
theories/SmartSpaceModel.v
theories/SmartSpaceSpec.v
theories/SmartSpaceProofs.v
theories/SmartSpaceSim.v
theories/SmartSpaceFacts.v
theories/SmartSpaceProps.v
theories/Arith.v
theories/LineSearchModel.v
theories/LineSearchSpec.v
theories/LineSearchProofs.v
theories/LineSearchTerm.v
theories/LineSearchFacts.v
theories/LineSearchWitness.v
theories/LineSearchProps.v
theories/SolverRunModel.v
theories/SolverRunSpec.v
theories/SolverRunProofs.v
theories/SolverRunFacts.v
theories/SolverRunWitness.v
theories/SolverRunProps.v
theories/TrustRegionModel.v
theories/TrustRegionSpec.v
theories/TCGProofs.v
theories/TrustRegionProofs.v
theories/TrustRegionFacts.v
theories/TrustRegionWitness.v
theories/TrustRegionProps.v
theories/QuasiNewtonModel.v
theories/QuasiNewtonSpec.v
theories/QNMemProofs.v
theories/QNAlgebra.v
theories/QNFacts.v
theories/QuasiNewtonWitness.v
theories/QuasiNewtonProps.v
theories/SplineModel.v
theories/SplineSpec.v
theories/SplineProofs.v
theories/SplineFill.v
theories/SplineFacts.v
theories/SplinePeriodic.v
theories/SplineEval.v
theories/SplineWitness.v
theories/SplineProps.v
theories/HaarModel.v
theories/HaarSpec.v
theories/HaarProofs.v
theories/HaarLevels.v
theories/HaarFacts.v
theories/HaarProps.v
theories/SparseModel.v
theories/SparseSpec.v
theories/SparseProofs.v
theories/SparseBuild.v
theories/SparseProduct.v
theories/SparseSolve.v
theories/SparseOther.v
theories/SparseFacts.v
theories/SparseProps.v
theories/DirectionModel.v
theories/DirectionSpec.v
theories/DirectionProofs.v
theories/NewtonProofs.v
theories/DirectionFacts.v
theories/DirectionProps.v
theories/NonsmoothModel.v
theories/NonsmoothSpec.v
theories/NonsmoothProofs.v
theories/NonsmoothSubProofs.v
theories/NonsmoothFacts.v
theories/NonsmoothProps.v
theories/ParamsModel.v
theories/ParamsSpec.v
theories/ParamsProofs.v
theories/ParamsProps.v
theories/ProductModel.v
theories/ProductSpec.v
theories/ProductProofs.v
theories/ProductWitness.v
theories/ProductProps.v
theories/FieldsModel.v
theories/FieldsSpec.v
theories/FieldsProofs.v
theories/FieldsWitness.v
theories/FieldsProps.v
theories/MatOpsModel.v
theories/MatOpsSpec.v
theories/MatOpsProofs.v
theories/MatOpsReal.v
theories/MatOpsWitness.v
theories/MatOpsProps.v
theories/MxTac.v
theories/StiefelModel.v
theories/StiefelSpec.v
theories/StiefelProofs.v
theories/StiefelRetr.v
theories/StiefelDiff.v
theories/StiefelPolar.v
theories/StiefelCayley.v
theories/StiefelIntr.v
theories/StiefelRigid.v
theories/StiefelWitness.v
theories/StiefelFacts.v
theories/StiefelProps.v
theories/TangentModel.v
theories/TangentSpec.v
theories/TangentProofs.v
theories/TangentLC.v
theories/TangentOps.v
theories/TangentSphere.v
theories/TangentFacts.v
theories/TangentProps.v
theories/RealsRcf.v
theories/SPDModel.v
theories/SPDSpec.v
theories/SPDProofs.v
theories/SPDIntr.v
theories/SPDFacts.v
theories/SPDProps.v
theories/MultiModel.v
theories/MultiSpec.v
theories/MultiProofs.v
theories/MultiTran.v
theories/MultiFacts.v
theories/MultiProps.v
theories/HessMemModel.v
theories/HessMemProofs.v
theories/HessMemFacts.v
theories/HessMemProps.v
theories/ProblemModel.v
theories/ProblemSpec.v
theories/ProblemProofs.v
theories/ProblemReal.v
theories/ProblemFacts.v
theories/NumGradMemModel.v
theories/NumGradMemProofs.v
theories/ProblemProps.v
theories/ObjectiveModel.v
theories/ObjectiveSpec.v
theories/ObjectiveProofs.v
theories/ObjectiveCases.v
theories/ObjectiveFacts.v
theories/ObjectiveWitness.v
theories/ObjectiveProps.v
theories/ProxModel.v
theories/ProxSpec.v
theories/ProxProofs.v
theories/ProxReal.v
theories/ProxWitness.v
theories/ProxProps.v
theories/FixedRankModel.v
theories/FixedRankSpec.v
theories/FixedRankProofs.v
theories/FixedRankOps.v
theories/FixedRankCurve.v
theories/FixedRankRetr.v
theories/FixedRankHess.v
theories/FixedRankWitness.v
theories/FixedRankFacts.v
theories/FixedRankProps.v
theories/LSR1Model.v
theories/LSR1Spec.v
theories/LSR1Proofs.v
theories/LSR1Exact.v
theories/LSR1Witness.v
theories/LSR1Props.v
theories/LSR1SubModel.v
theories/LSR1SubSpec.v
theories/LSR1Secular.v
theories/LSR1SubLin.v
theories/LSR1SubProofs.v
theories/LSR1SubHard.v
theories/LSR1SubWitness.v
theories/LSR1SubFacts.v
theories/LSR1SubTwo.v
theories/LSR1SubCond.v
theories/LSR1SubFinal.v
theories/LSR1SubExamples.v
theories/LSR1SubRefuted.v
theories/LSR1SubProps.v
theories/SphereTxModel.v
theories/SphereTxSpec.v
theories/SphereTxProofs.v
theories/SphereTxRQ.v
theories/SphereTxFacts.v
theories/SphereTxProps.v
theories/SSNModel.v
theories/SSNSpec.v
theories/SSNProofs.v
theories/SSNOpt.v
theories/SSNCG.v
theories/SSNMain.v
theories/SSNFacts.v
theories/SSNProps.v
theories/Decomp.v
theories/SymFRModel.v
theories/SymFRSpec.v
theories/SymFRProofs.v
theories/SymFRHess.v
theories/SymFRIntr.v
theories/SymFRRetr.v
theories/SymFRFacts.v
theories/SymFRWitness.v
theories/SymFRProps.v
theories/Eckart.v
theories/Q2FModel.v
theories/Q2FSpec.v
theories/Q2FProofs.v
theories/Q2FIntr.v
theories/Q2FRetr.v
theories/Q2FFacts.v
theories/Q2FProps.v
theories/KMFun.v
theories/KMLn.v
theories/KMModel.v
theories/KMSpec.v
theories/KMNorm.v
theories/KMProofs.v
theories/KMDeriv.v
theories/KMMean.v
theories/KMHess.v
theories/KMFacts.v
theories/KMProps.v
theories/CStieSpec.v
theories/CStieModel.v
theories/CMx.v
theories/CStieProofs.v
theories/CStieRetr.v
theories/CStiePolar.v
theories/CStieIntr.v
theories/CStieFacts.v
theories/CStieWitness.v
theories/CStieProps.v
theories/CFrSpec.v
theories/CQ2FModel.v
theories/CQ2FSpec.v
theories/CDecomp.v
theories/CFr.v
theories/CEckart.v
theories/CQ2FProofs.v
theories/CQ2FIntr.v
theories/CQ2FRetr.v
theories/CQ2FFacts.v
theories/CQ2FProps.v
theories/CSymFRModel.v
theories/CSymFRSpec.v
theories/CSymFRProofs.v
theories/CSymFRHess.v
theories/CSymFRIntr.v
theories/CSymFRRetr.v
theories/CSymFRFacts.v
theories/CSymFRWitness.v
theories/CSymFRProps.v
theories/PhaseModel.v
theories/PhaseSpec.v
theories/PhaseProofs.v
theories/PhaseFourier.v
theories/PhaseWitness.v
theories/PhaseProps.v
theories/BlindModel.v
theories/BlindSpec.v
theories/BlindProofs.v
theories/BlindWitness.v
theories/BlindProps.v
theories/HullModel.v
theories/HullSpec.v
theories/HullProofs.v
theories/HullWitness.v
theories/HullProps.v
theories/RandModel.v
theories/RandSpec.v
theories/RandProofs.v
theories/RandProps.v
