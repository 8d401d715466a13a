-Q theories Verif
theories/Np.v
theories/NpLemmas.v
theories/Spec.v
theories/LinOp.v
theories/SpecLemmas.v
theories/LinOpSpec.v
theories/LinOpProofs.v
theories/LinOpMM.v
theories/LinOpMore.v
theories/LinOpInv.v
theories/Cplx.v
theories/LinOpThm.v
theories/PropLinOp.v
theories/Rep.v
theories/RepMat.v
theories/RepWf.v
theories/RepProd.v
theories/RepAlg.v
theories/RepDist.v
theories/RepMul.v
theories/RepFun.v
theories/RepOps.v
theories/RepExpr.v
theories/RepExprProofs.v
theories/RepDefer.v
theories/RepSpec.v
theories/RhoProofs.v
theories/RepThm.v
theories/DualNum.v
theories/DrhoProofs.v
theories/DrhoThm.v
theories/RepThm1.v
theories/RepCode.v
theories/ExRep.v
theories/PropRep.v
theories/Order.v
theories/OrderProofs.v
theories/PropOrder.v
theories/RepDir.v
theories/DirThm.v
theories/PropDir.v
theories/Eq.v
theories/EqProofs.v
theories/Heap.v
theories/EqThm.v
theories/PropEq.v
theories/Solver.v
theories/SolSpec.v
theories/SolAlg.v
theories/SolSvd.v
theories/SolFam.v
theories/SolProofs.v
theories/SolBasis.v
theories/SolThm.v
theories/ExSol.v
theories/PropSolver.v
theories/Cache.v
theories/CacheProofs.v
theories/ExCache.v
theories/PropCache.v
theories/Krylov.v
theories/MxBridge.v
theories/KrySpec.v
theories/KryProofs.v
theories/KryThm.v
theories/KryMore.v
theories/KryCplx.v
theories/ExKry.v
theories/PropKrylov.v
theories/Rstruct.v
theories/Sparsify.v
theories/SpProofs.v
theories/PropSparsify.v
theories/Expm.v
theories/GrpSpec.v
theories/ExpFam.v
theories/GrpProofs.v
theories/ExGrp.v
theories/GrpThm.v
theories/PropConstraint.v
theories/Groups.v
theories/GroupsSpec.v
theories/GroupsLoop.v
theories/GroupsLie.v
theories/GroupsSp.v
theories/GroupsLor.v
theories/GroupsU.v
theories/GroupsInit.v
theories/GroupsCtor.v
theories/GroupsPerm.v
theories/GroupsThm.v
theories/PropGroups.v
theories/GroupsFlag.v
theories/GroupsSpecR.v
theories/GroupsReal.v
theories/GroupsRepPerm.v
theories/GroupsNum.v
theories/GroupsTol.v
theories/GroupsSample.v
theories/GroupsOrthT.v
theories/ExGroups.v
theories/PropGroups2.v
theories/GroupsRubik.v
theories/GroupsEmb.v
theories/GroupsProd.v
theories/ExGroups3.v
theories/PropGroups3.v
theories/Nn.v
theories/NnSpec.v
theories/NnLin.v
theories/NnGate.v
theories/NnGate2.v
theories/NnBil.v
theories/NnNet.v
theories/NnUni.v
theories/NnThm.v
theories/NnBack.v
theories/ExNn.v
theories/PropNn.v
theories/PropNn2.v
theories/Data.v
theories/DataSpec.v
theories/DataAlg.v
theories/DataThm.v
theories/DataStd.v
theories/DataAug.v
theories/DataErr.v
theories/ExData.v
theories/PropData.v
theories/ExactSpec.v
theories/GroupsForm.v
theories/GroupsDet.v
theories/RField.v
theories/GenSL.v
theories/GenSO.v
theories/GroupsGen.v
theories/GenLor.v
theories/GenSp.v
theories/GroupsExact.v
theories/GroupsExactL.v
theories/GroupsExactS.v
theories/GroupsExactD.v
theories/GroupsExactE.v
theories/GroupsExactP.v
theories/RubikSpec.v
theories/GroupsRubikG.v
theories/ExExact.v
theories/PropExact.v
theories/DataHamSpec.v
theories/DataGroups.v
theories/DataHam.v
theories/DataHamThm.v
theories/DataDiff.v
theories/DataPend.v
theories/ExData2.v
theories/PropData2.v
theories/DataCube.v
theories/DataCubeThm.v
theories/DataCubeSets.v
theories/ExCube.v
theories/PropCube.v
theories/NnNetsSpec.v
theories/NnNets.v
theories/NnNetsThm.v
theories/NnNetsReal.v
theories/PropNets.v
theories/Trainer.v
theories/TrainerSpec.v
theories/TrainerThm.v
theories/TrainerThm2.v
theories/TrainerThm3.v
theories/TrainerFlow.v
theories/TrainerAlign.v
theories/ExTrainer.v
theories/PropTrainer.v
theories/SvdReal.v
theories/SvdThm.v
theories/DimSpec.v
theories/DimAlg.v
theories/DimComb.v
theories/DimSol.v
theories/DimTenSpec.v
theories/DimGrp.v
theories/DimTen.v
theories/DimPerm.v
theories/DimThm.v
theories/DimOrth.v
theories/DimSO.v
theories/DimForm.v
theories/Vis.v
theories/VisThm.v
theories/FlagThm.v
theories/ExDim.v
theories/PropDim.v
theories/PropFlags.v
theories/CharSpec.v
theories/CharThm.v
theories/CharTen.v
theories/CharTrig.v
theories/CharRot.v
theories/CharPerm.v
theories/CharSO2.v
theories/PropChar.v
theories/FlowSpec.v
theories/Smooth.v
theories/FlowThm.v
theories/NnSmooth.v
theories/Picard.v
theories/FlowExist.v
theories/FlowNet.v
theories/FlowNet2.v
theories/ExFlow.v
theories/PropFlow.v
theories/FlowGlobal.v
theories/PropFlow2.v
theories/CountSpec.v
theories/CountThm.v
theories/CountTen.v
theories/CountGrp.v
theories/PropCount.v
theories/RNum.v
theories/Rollout.v
theories/RolloutSpec.v
theories/RolloutThm.v
theories/RolloutNet.v
theories/RolloutSho.v
theories/RolloutGrp.v
theories/PropRollout.v
theories/SchurSpec.v
theories/SchurAlg.v
theories/SchurThm.v
theories/SchurGrp.v
theories/SchurLor.v
theories/SchurDim.v
theories/SchurScal.v
theories/ExSchur.v
theories/PropSchur.v
theories/DescSpec.v
theories/DescAlg.v
theories/DescThm.v
theories/DescSharp.v
theories/DescThm2.v
theories/DescUpto.v
theories/ExDesc.v
theories/PropDesc.v
