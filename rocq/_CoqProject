-Q theories Verif
theories/Base.v
theories/Arith.v
theories/BaseLemmas.v
theories/MFd.v
theories/MCheb.v
theories/MSphere.v
theories/MGrid.v
theories/MParams.v
theories/MField.v
theories/MEom.v
theories/MInit.v
theories/MIo.v
theories/MMain.v
theories/MSim.v
theories/Toy.v
theories/ToyRun.v
theories/ForList.v
theories/PGrid.v
theories/PropGrid.v
theories/PTables.v
theories/PMake.v
theories/PropTables.v
theories/Spec.v
theories/PFd.v
theories/PFdR.v
theories/PropFd.v
theories/PropFd2.v
theories/PSum.v
theories/PCheb.v
theories/PCheb2.v
theories/PropCheb.v
theories/PSphere.v
theories/SphereSpec.v
theories/PSphere2.v
theories/PSphereR.v
theories/PropSphere.v
theories/PropLadder.v
theories/PChebG.v
theories/GridSpec.v
theories/PGridOp.v
theories/PropGridOp.v
theories/PRad.v
theories/PropRad.v
theories/PropGridFilter.v
theories/Conc.v
theories/ConcGrid.v
theories/ConcSec.v
theories/PConc.v
theories/PropConc.v
theories/PRed.v
theories/PropRed.v
theories/EomSpec.v
theories/PEom.v
theories/RkSpec.v
theories/PEomOk.v
theories/PEomR.v
theories/PropEom.v
theories/PRk.v
theories/PropRk.v
theories/PText.v
theories/PIo.v
theories/PropIo.v
theories/PInit.v
theories/PropInit.v
theories/PDriver.v
theories/PropDriver.v
theories/PParams.v
theories/PropParams.v
theories/PExit.v
theories/PropLaunch.v
theories/LegSpec.v
theories/PLeg.v
theories/PSphereD.v
theories/PropSphereD.v
theories/PSphInst.v
theories/PSphInst2.v
theories/PSphInst3.v
theories/PropSphereInst.v
theories/ContSpec.v
theories/PCont.v
theories/PropCont.v
theories/PropContInst.v
theories/PropNl.v
theories/PropCoord.v
theories/KerrSpec.v
theories/PropKerr.v
theories/PropAction.v
theories/TruncSpec.v
theories/PropTrunc.v
theories/PropTruncInst.v
theories/PropTruncAbove.v
theories/SymSpec.v
theories/PLinear.v
theories/PropSym.v
theories/PropSymInst.v
theories/RotSpec.v
theories/PRot.v
theories/PropRot.v
theories/PropRot2.v
theories/PRotInst.v
theories/PropRotInst.v
theories/PJet.v
theories/PJet2.v
theories/OrderSpec.v
theories/PropOrder.v
theories/PLinOde.v
theories/PropOrderInst.v
theories/PZeno.v
theories/ZenoSpec.v
theories/PropZeno.v
theories/PropZenoInst.v
theories/SmoothSpec.v
theories/PSmooth.v
theories/PropOrderX.v
theories/PropOrderXInst.v
theories/PropAzimuth.v
theories/PropSchw.v
theories/PropSchwInst.v
theories/FpSpec.v
theories/Fp.v
theories/FpErr.v
theories/PropFpFd.v
theories/PropFpTotal.v
theories/FpRed.v
theories/PropFpRed.v
theories/PropTransform.v
theories/MArray.v
theories/PropArray.v
theories/PropExamples.v
theories/FpKerr.v
theories/PropFpKerr.v
theories/PropFpKerr2.v
theories/PropFpKerr3.v
theories/MFmt.v
theories/FmtSpec.v
theories/PFmt.v
theories/PFmt2.v
theories/PropFmt.v
theories/PropFmt2.v
theories/PropFmt3.v
theories/PStod.v
theories/PropStod.v
theories/PropStod2.v
theories/MLaunch.v
theories/LaunchSpec.v
theories/PLaunch.v
theories/PropHistory.v
theories/MCrash.v
theories/PropCrash.v
theories/MDerived.v
theories/PropDerived.v
theories/PropScale.v
theories/PropScaleInst.v
theories/PropChebErr.v
theories/PropFpRhs.v
theories/PropFpRhsInst.v
theories/PropOverExt.v
theories/PropOverExtInst.v
theories/LaySpec.v
theories/PLay.v
theories/PLayG.v
theories/PropLayout.v
theories/PropLayout2.v
theories/PropLayoutInst.v
theories/SpreadSpec.v
theories/PropSpread.v
theories/PropSpread2.v
theories/PropWeak.v
theories/PropWeakInst.v
theories/PropTVD.v
theories/PropTVD2.v
theories/PropNest.v
theories/PropNestFp.v
theories/MBuild.v
theories/PropBuild.v
theories/PropAssert.v
theories/MSlurm.v
theories/PropSlurm.v
theories/PropAttrs.v
theories/FpSign.v
theories/FlipOps.v
theories/PropFpSign.v
theories/PropFpSignInst.v
theories/PropFpCalm.v
