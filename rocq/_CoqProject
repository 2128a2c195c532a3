-Q theories Verif
theories/ClusterModel.v
theories/ClusterSpec.v
theories/ClusterProofs.v
theories/ClusterPartition.v
theories/ClusterMore.v
theories/ClusterFinal.v
theories/P_Cluster.v
theories/IOModel.v
theories/IOSpec.v
theories/IOProofs.v
theories/ClusterIO.v
theories/ClusterDepth.v
theories/P_IO.v
theories/BlockModel.v
theories/BlockSpec.v
theories/BlockProofs.v
theories/BlockFinal.v
theories/BlockSym.v
theories/BlockLink.v
theories/P_Block.v
theories/Algebra.v
theories/BlasModel.v
theories/BlasProofs.v
theories/HMatModel.v
theories/HMatSpec.v
theories/HMatProofs.v
theories/HMatLoops.v
theories/HMatProducts.v
theories/HMatBuild.v
theories/HMatTop.v
theories/P_HMat.v
theories/DistModel.v
theories/DistSpec.v
theories/DistProofs.v
theories/DistVec.v
theories/DistMat.v
theories/DistLocal.v
theories/DistLink.v
theories/P_Dist.v
theories/OwnModel.v
theories/OwnSpec.v
theories/OwnProofs.v
theories/OwnStep.v
theories/OwnValues.v
theories/P_Own.v
theories/SolverModel.v
theories/SolverSpec.v
theories/SolverNum.v
theories/SolverCoarse.v
theories/P_Solver.v
theories/InfoModel.v
theories/P_Info.v
theories/Field.v
theories/RealNum.v
theories/CompModel.v
theories/CompSpec.v
theories/CompProofs.v
theories/CompPartial.v
theories/CompSVD.v
theories/CompReal.v
theories/P_Comp.v
theories/DenseModel.v
theories/DenseSpec.v
theories/DenseProofs.v
theories/DenseLU.v
theories/DenseChol.v
theories/P_Dense.v
theories/GeomModel.v
theories/GeomSpec.v
theories/GeomProofs.v
theories/P_Geom.v
theories/ArithModel.v
theories/ArithSpec.v
theories/ArithDense.v
theories/ArithLr.v
theories/ArithTree.v
theories/ArithHier.v
theories/ArithProd.v
theories/ArithDest.v
theories/P_Arith.v
theories/HFactModel.v
theories/HFactSpec.v
theories/HFactSubst.v
theories/HFactSolve.v
theories/HFactHH.v
theories/HFactTri.v
theories/P_HTri.v
theories/HFactLU.v
theories/HFactRenum.v
theories/P_HLU.v
theories/DensePos.v
theories/HFactChol.v
theories/P_HChol.v
theories/LocalModel.v
theories/LocalSpec.v
theories/LocalProofs.v
theories/LocalOverlap.v
theories/LocalSolvers.v
theories/P_Local.v
theories/DdmModel.v
theories/DdmSpec.v
theories/DdmProofs.v
theories/DdmTop.v
theories/P_Ddm.v
theories/BuildModel.v
theories/BuildSpec.v
theories/BuildProofs.v
theories/BuildTop.v
theories/P_Build.v
theories/CompRank.v
theories/P_CompRank.v
theories/DiagModel.v
theories/DiagSpec.v
theories/DiagProofs.v
theories/P_Diag.v
theories/CopyModel.v
theories/CopySpec.v
theories/CopyProofs.v
theories/CopyFact.v
theories/P_Copy.v
theories/RecompModel.v
theories/RecompSpec.v
theories/RecompProofs.v
theories/P_Recomp.v
theories/Evp3Model.v
theories/Evp3Spec.v
theories/Evp3Proofs.v
theories/P_Evp3.v
theories/SubSpec.v
theories/SubProofs.v
theories/P_Sub.v
theories/OvrModel.v
theories/OvrSpec.v
theories/OvrProofs.v
theories/P_Ovr.v
theories/AccSpec.v
theories/AccProofs.v
theories/P_Acc.v
theories/GeneoModel.v
theories/GeneoSpec.v
theories/GeneoProofs.v
theories/P_Geneo.v
theories/DAccSpec.v
theories/DAccProofs.v
theories/P_DAcc.v
theories/P_DAccLocal.v
theories/TruncSpec.v
theories/TruncProofs.v
theories/P_Trunc.v
theories/BlockFileModel.v
theories/BlockFileSpec.v
theories/BlockFileProofs.v
theories/P_BlockFile.v
theories/InfoDistModel.v
theories/P_InfoDist.v
theories/ErrModel.v
theories/P_Err.v
theories/GeoFileModel.v
theories/GeoFileSpec.v
theories/P_GeoFile.v
theories/MatOpModel.v
theories/P_MatOp.v
theories/LogModel.v
theories/P_Log.v
theories/P_ArithSym.v
theories/SymProdProofs.v
theories/P_SymProd.v
theories/AccumSpec.v
theories/AccumProofs.v
theories/AccumReal.v
theories/P_Accum.v
theories/OperandSpec.v
theories/OperandProofs.v
theories/OperandFact.v
theories/P_Operand.v
theories/P_Total.v
theories/StoreProofs.v
theories/P_Store.v
theories/BalanceProofs.v
theories/P_Balance.v
theories/MachModel.v
theories/MachProofs.v
theories/P_Mach.v
theories/ProcModel.v
theories/ProcSpec.v
theories/ProcProofs.v
theories/ProcLink.v
theories/ProcDdm.v
theories/P_Proc.v
theories/MachDistModel.v
theories/MachDistSpec.v
theories/MachDistProofs.v
theories/P_MachDist.v
theories/MachDdmModel.v
theories/MachDdmProofs.v
theories/P_MachDdm.v
theories/RoundModel.v
theories/RoundSpec.v
theories/RoundProofs.v
theories/RoundLoops.v
theories/RoundRef.v
theories/P_Round.v
theories/P_RoundCost.v
theories/P_RoundTotal.v
theories/RoundDistModel.v
theories/RoundDistProofs.v
theories/P_RoundDist.v
theories/P_RoundDistTotal.v
theories/P_RoundDistLocal.v
theories/RoundTransModel.v
theories/P_RoundTrans.v
theories/P_RoundTransTotal.v
