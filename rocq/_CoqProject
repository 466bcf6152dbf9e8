-Q theories Verif
theories/Lib.v
theories/MatrixModel.v
theories/MatrixSpec.v
theories/MatrixProofs.v
theories/MatrixSolveModel.v
theories/MatrixSolveProofs.v
theories/MatrixLinkModel.v
theories/MatrixLinkProofs.v
theories/MatrixOracle.v
theories/MatrixExtraProofs.v
theories/Properties_Matrix.v
theories/BatchModel.v
theories/BatchSpec.v
theories/BatchProofs.v
theories/CsrProofs.v
theories/Properties_Batch.v
theories/TimeModel.v
theories/TimeSpec.v
theories/TimeProofs.v
theories/CNProofs.v
theories/Properties_Time.v
theories/MpiModel.v
theories/MpiSpec.v
theories/MpiProofs.v
theories/MpiTransposeProofs.v
theories/Properties_Mpi.v
theories/GLTables.v
theories/QuadModel.v
theories/QuadSpec.v
theories/QuadProofs.v
theories/SimpsonProofs.v
theories/QuadNdProofs.v
theories/Properties_Quad.v
theories/MathModel.v
theories/MathSpec.v
theories/MathProofs.v
theories/RestrictProofs.v
theories/Properties_Math.v
theories/TensorModel.v
theories/TensorSpec.v
theories/TensorProofs.v
theories/TensorMulProofs.v
theories/TensorStaticProofs.v
theories/Properties_Tensor.v
theories/LagrangeModel.v
theories/LagrangeSpec.v
theories/LagrangeProofs.v
theories/LagrangeStencilProofs.v
theories/LagrangeEvalProofs.v
theories/Properties_Lagrange.v
theories/MappingModel.v
theories/MappingSpec.v
theories/MappingProofs.v
theories/MappingCzarny.v
theories/MappingCyl.v
theories/MappingVec.v
theories/MappingComb.v
theories/Properties_Mapping.v
theories/SpeciesModel.v
theories/SpeciesSpec.v
theories/SpeciesProofs.v
theories/Properties_Species.v
theories/XVxModel.v
theories/XVxSpec.v
theories/XVxProofs.v
theories/Properties_XVx.v
theories/CollIntraModel.v
theories/CollIntraSpec.v
theories/ErfProofs.v
theories/CollIntraProofs.v
theories/Properties_CollIntra.v
theories/EdgeModel.v
theories/EdgeSpec.v
theories/EdgeProofs.v
theories/EdgeSlice.v
theories/EdgeFloat.v
theories/Properties_Edge.v
theories/ConnModel.v
theories/ConnSpec.v
theories/ConnProofs.v
theories/ConnLines.v
theories/ConnMain.v
theories/ConnRanges.v
theories/Properties_Conn.v
theories/DerivModel.v
theories/DerivSpec.v
theories/DerivProofs.v
theories/DerivMain.v
theories/DerivRanges.v
theories/DerivLife.v
theories/Properties_Deriv.v
theories/OnionModel.v
theories/OnionSpec.v
theories/OnionProofs.v
theories/OnionEval.v
theories/Properties_Onion.v
theories/FftModel.v
theories/FftSpec.v
theories/FftProofs.v
theories/FftHalf.v
theories/FftMain.v
theories/FftSolve.v
theories/FftLoop.v
theories/Properties_Fft.v
theories/AdvModel.v
theories/AdvSpec.v
theories/AdvProofs.v
theories/AdvLagrange.v
theories/AdvLagrangeModel.v
theories/AdvMain.v
theories/Properties_Adv.v
theories/PolarModel.v
theories/PolarSpec.v
theories/PolarProofs.v
theories/PolarMain.v
theories/PolarCharts.v
theories/PolarAdv.v
theories/Properties_Polar.v
theories/FemModel.v
theories/FemSpec.v
theories/FemAsm.v
theories/FemForm.v
theories/FemSolve.v
theories/FemMain.v
theories/FemExtra.v
theories/Properties_Fem.v
theories/DiffOpModel.v
theories/DiffOpSpec.v
theories/DiffOpProofs.v
theories/DiffOpCurl.v
theories/DiffOpMain.v
theories/DiffOpChain.v
theories/Properties_DiffOp.v
theories/GyroModel.v
theories/GyroSpec.v
theories/GyroProofs.v
theories/Properties_Gyro.v
theories/LagDerivModel.v
theories/LagDerivSpec.v
theories/LagDerivPoly.v
theories/LagDerivComb.v
theories/LagDerivProofs.v
theories/LagDerivMain.v
theories/LagDerivBuild.v
theories/LagDerivExamples.v
theories/Properties_LagDeriv.v
theories/IfdModel.v
theories/IfdSpec.v
theories/IfdAnalysis.v
theories/IfdProofs.v
theories/IfdMain.v
theories/IfdCase.v
theories/IfdLink.v
theories/IfdUniform.v
theories/IfdTheorems.v
theories/IfdTwo.v
theories/IfdExamples.v
theories/Properties_Ifd.v
theories/PspModel.v
theories/PspSpec.v
theories/PspIntSpec.v
theories/PspBernstein.v
theories/PspProofs.v
theories/PspBasis.v
theories/PspMain.v
theories/PspCor.v
theories/PspTheorems.v
theories/PspPole.v
theories/PspJac.v
theories/PspEval.v
theories/PspInt.v
theories/PspFinal.v
theories/PspExamples.v
theories/Properties_Psp.v
theories/PpfModel.v
theories/PpfSpec.v
theories/PpfRows.v
theories/PpfPattern.v
theories/PpfCsr.v
theories/PpfBasis.v
theories/PpfWin.v
theories/PpfForm.v
theories/PpfAsm.v
theories/PpfRhs.v
theories/PpfMain.v
theories/PpfSolve.v
theories/PpfLimits.v
theories/PpfIndep.v
theories/PpfExamples.v
theories/PpfDefinite.v
theories/PpfUnique.v
theories/PpfVolume.v
theories/PpfFinal.v
theories/Properties_Ppf.v
theories/AdfModel.v
theories/AdfSpec.v
theories/AdfProofs.v
theories/AdfMain.v
theories/AdfPolar.v
theories/AdfDeriv.v
theories/Properties_Adf.v
theories/PcrModel.v
theories/PcrSpec.v
theories/PcrProofs.v
theories/PcrImplicit.v
theories/PcrMain.v
theories/PcrExamples.v
theories/Properties_Pcr.v
theories/GciModel.v
theories/GciSpec.v
theories/GciDio.v
theories/GciEq.v
theories/GciXY.v
theories/GciExamples.v
theories/Properties_Gci.v
theories/MxwModel.v
theories/MxwSpec.v
theories/MxwGauss.v
theories/MxwProofs.v
theories/MxwMain.v
theories/Properties_Mxw.v
theories/XyvModel.v
theories/XyvSpec.v
theories/XyvRange.v
theories/XyvVlasov.v
theories/XyvDensity.v
theories/XyvRun.v
theories/XyvFftModel.v
theories/XyvFft.v
theories/XyvField.v
theories/XyvMain.v
theories/Properties_Xyv.v
theories/DmbModel.v
theories/DmbSpec.v
theories/DmbProofs.v
theories/DmbCirc.v
theories/DmbRefined.v
theories/Properties_Dmb.v
theories/MshModel.v
theories/MshSpec.v
theories/MshMesh.v
theories/MshScan.v
theories/MshCli.v
theories/MshMain.v
theories/Properties_Msh.v
theories/RstModel.v
theories/RstSpec.v
theories/RstProofs.v
theories/RstSched.v
theories/RstSteps.v
theories/Properties_Rst.v
theories/DfbModel.v
theories/DfbSpec.v
theories/DfbProofs.v
theories/DfbMain.v
theories/DfbExamples.v
theories/Properties_Dfb.v
theories/GkoModel.v
theories/GkoSpec.v
theories/GkoProofs.v
theories/GkoSolve.v
theories/GkoExamples.v
theories/Properties_Gko.v
theories/ColModel.v
theories/ColSpec.v
theories/ColProofs.v
theories/ColMain.v
theories/ColRun.v
theories/ColExamples.v
theories/Properties_Col.v
theories/VfdModel.v
theories/VfdSpec.v
theories/VfdProofs.v
theories/VfdMain.v
theories/VfdCopy.v
theories/VfdExamples.v
theories/Properties_Vfd.v
theories/NrmModel.v
theories/NrmSpec.v
theories/NrmProofs.v
theories/NrmQuad.v
theories/NrmExamples.v
theories/Properties_Nrm.v
theories/MpbModel.v
theories/MpbSpec.v
theories/MpbProofs.v
theories/MpbExamples.v
theories/Properties_Mpb.v
theories/UtlModel.v
theories/UtlSpec.v
theories/UtlPrint.v
theories/UtlConf.v
theories/UtlMain.v
theories/Properties_Utl.v
theories/FltModel.v
theories/FltSpec.v
theories/FltBase.v
theories/FltLoops.v
theories/FltMain.v
theories/FltWrap.v
theories/FltSearch.v
theories/Properties_Flt.v
theories/UniModel.v
theories/UniSpec.v
theories/UniMain.v
theories/UniNode.v
theories/UniWrap.v
theories/UniMeshModel.v
theories/UniMeshSpec.v
theories/UniMesh.v
theories/UniMeshOrd.v
theories/Properties_Uni.v
