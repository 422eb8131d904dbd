-Q theories Verif
theories/Base.v
theories/Num.v
theories/Map.v
theories/UReal.v
theories/World.v
theories/Sums.v
theories/SpecLin.v
theories/URealFacts.v
theories/URealR.v
theories/SpecObs.v
theories/URealProofs.v
theories/URealProofs2.v
theories/Threads.v
theories/ThreadsProofs.v
theories/SpecAD.v
theories/ADProofs.v
theories/Demo.v
theories/Stat.v
theories/StatProofs.v
theories/PropsUReal.v
theories/PropsStat.v
theories/UReals.v
theories/SpecLDLT.v
theories/URealsProofs.v
theories/PropsUReals.v
theories/Nan.v
theories/Math.v
theories/Derivs.v
theories/Derivs2d.v
theories/SpecMath.v
theories/MathProofs.v
theories/PropsMath.v
theories/HessGrad.v
theories/Moments.v
theories/CheckMoments.v
theories/UReal2.v
theories/HessProofs.v
theories/U2Facts.v
theories/World2.v
theories/U2World.v
theories/SpecU2.v
theories/U2Values.v
theories/U2Ret.v
theories/SpecU2Run.v
theories/U2Proofs.v
theories/Demo2.v
theories/U2Proofs2.v
theories/PropsU2.v
theories/SpecProb.v
theories/MomSums.v
theories/MomSpec.v
theories/MomPoly.v
theories/MomCode.v
theories/MomLoops.v
theories/MomMatch.v
theories/MomProofs.v
theories/MomCov.v
theories/SpecMom.v
theories/SpecEst.v
theories/MomGiven.v
theories/MomDeg.v
theories/MomProd.v
theories/MomStats.v
theories/MomNew.v
theories/MomCum.v
theories/MomEst.v
theories/Demo3.v
theories/PropsMom.v
theories/SpecHankel.v
theories/CheckProofs.v
theories/Spectral.v
theories/Realize.v
theories/Distr.v
theories/PropsCheck.v
theories/SpecDistr.v
theories/Integrals.v
theories/DensProb.v
theories/DistrProofs.v
theories/DistrProofs2.v
theories/Demo4.v
theories/PropsDistr.v
theories/Io.v
theories/SpecIo.v
theories/IoProofs.v
theories/IoProofs2.v
theories/IoProofs3.v
theories/IoProofs4.v
theories/IoProofs5.v
theories/IoProofs6.v
theories/Demo5.v
theories/PropsIo.v
theories/Math2.v
theories/HgMap.v
theories/SpecMath2.v
theories/Math2Proofs.v
theories/PropsMath2.v
theories/Functions.v
theories/SpecFun.v
theories/FunProofs.v
theories/FunProofs2.v
theories/PropsFun.v
theories/SpecCast.v
theories/ConvProofs.v
theories/PropsCast.v
theories/Ieee.v
theories/IeeeFacts.v
theories/SpecIeee.v
theories/IeeeProofs.v
theories/IeeeProofs2.v
theories/IeeeProofs3.v
theories/IeeeProofs4.v
theories/IeeeProofs5.v
theories/IeeeProofs6.v
theories/DemoIeee.v
theories/SpecIeee2.v
theories/IeeeCov.v
theories/IeeeCov2.v
theories/IeeeCorr.v
theories/DemoIeee2.v
theories/PropsIeee.v
theories/SpecOrder.v
theories/OrderProofs.v
theories/OrderProofs2.v
theories/OrderProofs3.v
theories/OrderDemo.v
theories/OrderDemo2.v
theories/PropsOrder.v
theories/SpecAD2.v
theories/ADProofs2.v
theories/ADDemo2.v
theories/PropsAD2.v
theories/SpecDaniell.v
theories/Boundary.v
theories/SpecGrad.v
theories/GradProofs.v
theories/SpecU2Mixed.v
theories/U2Mixed.v
theories/SpecU2Mixed2.v
theories/U2Mixed2.v
theories/Demo2Mixed.v
theories/MathIeee.v
theories/MathIeeeProofs.v
theories/SpecMathIeee.v
theories/IeeeRel.v
theories/MathAcc.v
theories/MathAcc2.v
theories/MathAcc3.v
theories/MathAcc4.v
theories/MathAcc5.v
theories/PropsMathIeee.v
theories/SpecMathIeee2.v
theories/MathAcc6.v
theories/MathAcc7.v
theories/IoIeee.v
theories/SpecIoIeee.v
theories/IoAcc1.v
theories/IoAcc2.v
theories/IoAcc3.v
theories/IoAcc4.v
theories/IoAcc5.v
theories/IoAcc6.v
theories/IoAcc7.v
theories/IoAcc8.v
theories/IoAcc9.v
theories/PropsIoIeee.v
theories/Alloc.v
theories/SpecAlloc.v
theories/AllocProofs.v
theories/AllocProofs2.v
theories/AllocDemo.v
theories/PropsAlloc.v
theories/ThreadCalls.v
theories/SpecThreads.v
theories/ThreadCallsProofs.v
theories/ThreadCallsProofs2.v
theories/PropsThreadCalls.v
theories/SpecFunIeee.v
theories/FunAcc.v
theories/FunAcc2.v
theories/FunAcc3.v
theories/FunAcc4.v
theories/FunAcc5.v
theories/FunAcc6.v
theories/PropsFunIeee.v
theories/U2All.v
theories/PropsU2All.v
theories/SpecLDLTIeee.v
theories/URealsAcc.v
theories/URealsAcc2.v
theories/URealsAcc3.v
theories/PropsURealsIeee.v
theories/Stat2.v
theories/Stat2Proofs.v
theories/Demo3Stat.v
theories/MomBilin.v
theories/PropsStat2.v
theories/Move.v
theories/SpecMove.v
theories/MoveProofs.v
theories/PropsMove.v
theories/SpecAcc2.v
theories/Track.v
theories/AccMom.v
theories/AccMom2.v
theories/AccSize.v
theories/AccSize2.v
theories/AccFinal.v
theories/DemoAcc2.v
theories/PropsAcc2.v
theories/SpecAcc3.v
theories/PolyHom.v
theories/Track2.v
theories/PolyAcc.v
theories/PolyAcc2.v
theories/PolyAcc3.v
theories/PropsProg.v
theories/SpecDistrIeee.v
theories/DistrAcc.v
theories/DistrAcc2.v
theories/DemoDistr.v
theories/PropsDistrIeee.v
theories/SpecMath2Ieee.v
theories/Math2Acc.v
theories/Math2Acc2.v
theories/Math2Acc3.v
theories/Math2Acc4.v
theories/Math2Acc5.v
theories/Math2Acc6.v
theories/DemoMath2.v
theories/PropsMath2Ieee.v
theories/ThreadCalls2.v
theories/SpecThreads2.v
theories/ThreadCalls2Proofs.v
theories/ThreadCalls2Proofs2.v
theories/ThreadCalls2Proofs3.v
theories/ThreadDemo2.v
theories/PropsThreadCalls2.v
theories/Alloc2.v
theories/SpecAlloc2.v
theories/Alloc2Proofs.v
theories/Alloc2Proofs2.v
theories/Alloc2Proofs3.v
theories/AllocDemo2.v
theories/PropsAlloc2.v
theories/AssignProofs.v
theories/AssignProofs2.v
theories/AssignProofs3.v
theories/SpecStatIeee.v
theories/StatAcc.v
theories/StatAcc2.v
theories/StatAcc3.v
theories/PropsStatIeee.v
theories/SpecShape.v
theories/ShapeAcc.v
theories/ShapeAcc2.v
theories/DemoShape.v
theories/PropsShape.v
theories/SpecAcc4.v
theories/UPoly.v
theories/UPoly2.v
theories/UPoly3.v
theories/UPoly4.v
theories/DemoUPoly.v
theories/PropsUPoly.v
theories/SpecAcc5.v
theories/UPoly5.v
theories/UPoly6.v
theories/SpecAcc6.v
theories/CentralAcc.v
theories/CentralAcc2.v
theories/CentralAcc3.v
theories/DemoCentral.v
theories/PropsCentral.v
theories/SpecMem.v
theories/MemProofs.v
theories/MemDemo.v
theories/PropsMem.v
theories/FunEff.v
theories/SpecFunEff.v
theories/FunEffProofs.v
theories/FunEffDemo.v
theories/PropsFunEff.v
theories/SpecRel.v
theories/RelProg.v
theories/RelProg2.v
theories/RelDemo.v
theories/PropsRel.v
theories/SpecMem2.v
theories/Mem2Proofs.v
theories/Mem2Demo.v
theories/PropsMem2.v
theories/Stream.v
theories/SpecStream.v
theories/StreamProofs.v
theories/StreamDemo.v
theories/StreamFull.v
theories/SpecStreamFull.v
theories/StreamFullProofs.v
theories/PropsStream.v
theories/SpecTrue.v
theories/TrueProb.v
theories/TrueProofs.v
theories/TrueProofs2.v
theories/TrueDemo.v
theories/PropsTrue.v
theories/UReal2Self.v
theories/AssignSelf.v
theories/AssignTri.v
theories/World2Assign.v
theories/SpecAssign2.v
theories/AssignWf.v
theories/SpecAffine.v
theories/TrueAffine.v
theories/SpecDegree.v
theories/TrueQuad.v
