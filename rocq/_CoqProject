-Q theories Verif
theories/Base.v
theories/BaseFacts.v
theories/TreeModel.v
theories/CliqueModel.v
theories/Spec_Tree.v
theories/TreeProofs.v
theories/Spec_Clique.v
theories/CliqueProofs.v
theories/CliqueFill.v
theories/Spec_Block.v
theories/SupernodeModel.v
theories/SupernodeProofs.v
theories/TriWorkspaceModel.v
theories/TriWorkspaceProofs.v
theories/AssemblerModel.v
theories/Spec_Assembly.v
theories/AssemblerProofs.v
theories/SymbolicFacts.v
theories/Prop_Symbolic.v
theories/Prop_Assembly.v
theories/DenseModel.v
theories/RSum.v
theories/DenseProofs.v
theories/BlockModel.v
theories/BlockProofs.v
theories/BlockFactor.v
theories/BlockSolve.v
theories/BlockLdlt.v
theories/BlockLdltSolve.v
theories/KktModel.v
theories/KktOrder.v
theories/KktProofs.v
theories/Spec_Linear.v
theories/Spec_Preprocess.v
theories/RhsProofs.v
theories/PosDef.v
theories/LinearFacts.v
theories/Prop_Linear.v
theories/LayoutModel.v
theories/ProgramModel.v
theories/PreprocessModel.v
theories/ApiModel.v
theories/Spec_Program.v
theories/ProgramProofs.v
theories/ProgramRun.v
theories/CoeffProofs.v
theories/ProgramState.v
theories/Prop_Program.v
theories/Spec_Layout.v
theories/LayoutProofs.v
theories/Prop_Layout.v
theories/DivergenceModel.v
theories/SolveModel.v
theories/SolveProofs.v
theories/Spec_Solve.v
theories/SolveFacts.v
theories/SolveStats.v
theories/ToyBackend.v
theories/Prop_Solve.v
theories/Spec_Divergence.v
theories/DivergenceProofs.v
theories/Prop_Divergence.v
theories/LinearModel.v
theories/ConcreteBackend.v
theories/SolveLast.v
theories/Spec_Conex.v
theories/Spec_Semidefinite.v
theories/SocLinks.v
theories/HermFactor.v
theories/HermBound.v
theories/HermCone.v
theories/HermLinks.v
theories/HermPairing.v
theories/HermEstimate.v
theories/ConexFacts.v
theories/ConexStep.v
theories/LineSearchFacts.v
theories/ConexKkt.v
theories/ConexBlocks.v
theories/ConexNewton.v
theories/ConexResult.v
theories/ConexGap.v
theories/ConexOutcome.v
theories/ConexDefinite.v
theories/ConexRegular.v
theories/ConexTotal.v
theories/ConexBuilt.v
theories/ConexRun.v
theories/SquareRun.v
theories/ConeRun.v
theories/Prop_Conex.v
theories/Prop_Cones.v
theories/HermRun.v
theories/Prop_Semidefinite.v
theories/PreprocessProofs.v
theories/Prop_Preprocess.v
theories/EliminationModel.v
theories/Spec_Elimination.v
theories/EliminationProofs.v
theories/EliminationChordal.v
theories/EliminationTests.v
theories/Prop_Elimination.v
theories/JordanModel.v
theories/Spec_Hyper.v
theories/HyperFacts.v
theories/JordanProofs.v
theories/JordanInterior.v
theories/JordanSteps.v
theories/JordanSchur.v
theories/JordanTrace.v
theories/PadeProofs.v
theories/Prop_Jordan.v
theories/SocModel.v
theories/Spec_Soc.v
theories/Spec_SocSteps.v
theories/SocAlgebra.v
theories/SocProofs.v
theories/SocCone.v
theories/SocNewton.v
theories/SocEpi.v
theories/SocExamples.v
theories/Prop_Soc.v
theories/LanczosModel.v
theories/Spec_Lanczos.v
theories/LanczosProofs.v
theories/LanczosLinks.v
theories/RealFactor.v
theories/LanczosFacts.v
theories/LanczosReports.v
theories/Prop_Lanczos.v
theories/Spec_Spectrum.v
theories/ConexSpectrum.v
theories/Prop_Spectrum.v
theories/Spec_Reports.v
theories/JordanReports.v
theories/Prop_Reports.v
theories/FeasibleModel.v
theories/Spec_Feasible.v
theories/FeasibleProofs.v
theories/FeasibleRun.v
theories/Prop_Feasible.v
theories/DenseLmiModel.v
theories/Spec_DenseLmi.v
theories/DenseLmiProofs.v
theories/Prop_DenseLmi.v
theories/SparseModel.v
theories/SparseProofs.v
theories/Prop_Sparse.v
theories/QrFacts.v
theories/QrRun.v
theories/Prop_Qr.v
theories/PrivateFacts.v
theories/ClientModel.v
theories/Spec_Client.v
theories/ClientFacts.v
theories/ClientProofs.v
theories/ClientRun.v
theories/Prop_Client.v
theories/Spec_Conic.v
theories/ConicWrites.v
theories/ConicProofs.v
theories/ConicRun.v
theories/Prop_Conic.v
theories/Prop_Quadratic.v
theories/WrapperModel.v
theories/Spec_Wrapper.v
theories/WrapperProofs.v
theories/Prop_Wrapper.v
theories/EstimateModel.v
theories/Spec_Estimate.v
theories/EstimateProofs.v
theories/EstimateLinks.v
theories/EstimateColumns.v
theories/EstimateFacts.v
theories/Prop_Estimate.v
theories/RldltModel.v
theories/Spec_Rldlt.v
theories/RldltProofs.v
theories/RldltFacts.v
theories/Prop_Rldlt.v
theories/AlgebraModel.v
theories/GramSchmidt.v
theories/Spec_Algebra.v
theories/AlgebraProofs.v
theories/MinimalProofs.v
theories/Prop_Algebra.v
theories/SymmetricModel.v
theories/Spec_Symmetric.v
theories/SymmetricProofs.v
theories/Prop_Symmetric.v
theories/ComponentModel.v
theories/Spec_Component.v
theories/ComponentProofs.v
theories/Prop_Component.v
theories/MaskModel.v
theories/Spec_Mask.v
theories/MaskProofs.v
theories/MaskLoop.v
theories/Prop_Mask.v
