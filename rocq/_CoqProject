-Q theories Verif
theories/Scalar.v
theories/ScalarR.v
theories/ScalarF.v
theories/Geometry.v
theories/Joint.v
theories/Link.v
theories/Prog.v
theories/NodeM.v
theories/ChainM.v
theories/FuncsM.v
theories/IkM.v
theories/UrdfM.v
theories/RunLemmas.v
theories/SpecValues.v
theories/RangeProofs.v
theories/SpecJoint.v
theories/JointProofs.v
theories/PropRange.v
theories/PropJoint.v
theories/SpecNode.v
theories/NodeProofs.v
theories/Ex.v
theories/PropNode.v
theories/SpecGraph.v
theories/GraphProofs.v
theories/LinkProofs.v
theories/PropGraph.v
theories/SpecChain.v
theories/ChainProofs.v
theories/PropChain.v
theories/IkLookup.v
theories/SpecFK.v
theories/FKProofs.v
theories/PropFK.v
theories/Safe.v
theories/SafeSound.v
theories/SafeNode.v
theories/SafeChain.v
theories/Api.v
theories/ApiProofs.v
theories/ApiSound.v
theories/SpecHist.v
theories/HistProofs.v
theories/FrameProofs.v
theories/ExApi.v
theories/PropHist.v
theories/SpecDisplay.v
theories/DisplayProofs.v
theories/PropDisplay.v
theories/VelocityProofs.v
theories/Sched.v
theories/PropLock.v
theories/SpecIk.v
theories/IkProofs.v
theories/IkProofs2.v
theories/PropIk.v
theories/PropEnd.v
theories/SpecGeom.v
theories/RGeom.v
theories/PoseDiff.v
theories/GeomProofs.v
theories/PropGeom.v
theories/JacProofs.v
theories/JacReal.v
theories/PropJac.v
theories/SpecCom.v
theories/ComProofs.v
theories/PropCom.v
theories/SpecStep.v
theories/StepProofs.v
theories/LinAlgR.v
theories/LinArm.v
theories/LinIk.v
theories/PropStep.v
theories/SpecClone.v
theories/CloneProofs.v
theories/CloneProofs2.v
theories/CloneProofs3.v
theories/CloneProofs4.v
theories/PropClone.v
theories/SpecUrdf.v
theories/UrdfProofs.v
theories/UrdfProofs2.v
theories/UrdfProofs3.v
theories/UrdfProofs4.v
theories/FloatSub.v
theories/UrdfProofs5.v
theories/PropUrdf.v
theories/Own.v
theories/SpecOwn.v
theories/OwnProofs.v
theories/PropOwn.v
theories/SpecAtomic.v
theories/AtomicProofs.v
theories/PropAtomic.v
theories/BuilderM.v
theories/PropBuilder.v
theories/SpecGuard.v
theories/GuardProofs.v
theories/PropGuard.v
theories/ReplayLib.v
theories/ReplayUrdf.v
theories/Replay.v
theories/SpecReach.v
theories/ReachProofs.v
theories/PropReach.v
theories/SpecFloatErr.v
theories/FloatErr.v
theories/SpecAcc.v
theories/AccProofs.v
theories/AccProofs2.v
theories/PropAcc.v
theories/SpecPoison.v
theories/PoisonProofs.v
theories/PropPoison.v
theories/FloatBack.v
theories/SpecSolved.v
theories/SolvedProofs.v
theories/SolvedProofs2.v
theories/PropSolved.v
theories/PropQuery.v
theories/TrajProofs.v
theories/TrajQuat.v
theories/TrajLog.v
theories/TrajStep.v
theories/PropTraj.v
theories/LuM.v
theories/LuProofs.v
theories/PropLu.v
theories/SvdM.v
theories/SpecLin.v
theories/SvdProofs.v
theories/PropSvd.v
theories/SpecApart.v
theories/ApartProofs.v
theories/PropApart.v
theories/SpecRace.v
theories/RaceProofs.v
theories/PropRace.v
theories/SpecConv.v
theories/ConvGeom.v
theories/ConvRot.v
theories/ConvList.v
theories/ConvStep.v
theories/ConvIk.v
theories/ConvReg.v
theories/PropConv.v
theories/SpecJacAcc.v
theories/AccJac.v
theories/PropJacAcc.v
theories/SpecComAcc.v
theories/AccCom.v
theories/PropComAcc.v
theories/ErrorM.v
theories/SpecError.v
theories/ErrorProofs.v
theories/ErrorIk.v
theories/PropError.v
theories/SpecView.v
theories/ViewProofs.v
theories/PropView.v
theories/SpecLuAcc.v
theories/LuAcc.v
theories/PropLuAcc.v
theories/SpecConvAcc.v
theories/FConvJac.v
theories/FConvCore.v
theories/FConvStep.v
theories/FConvOne.v
theories/FConvLoop.v
theories/PropConvAcc.v
theories/PropQuery2.v
theories/SvdMax.v
theories/SvdExist.v
theories/SvdUniq.v
theories/SvdDet.v
theories/PropSvd2.v
theories/SerdeM.v
theories/PropSerde.v
theories/PoseFwd.v
theories/PropPoseAcc.v
theories/FPoseCore.v
theories/FPoseNum.v
theories/FPoseLoop.v
theories/PropPoseConv.v
theories/PropErrText.v
theories/SpecNan.v
theories/NanProofs.v
theories/PropNan.v
theories/PropStill.v
theories/SpecCouple.v
theories/CoupleProofs.v
theories/PropMimicIk.v
theories/SpecBase.v
theories/BaseLin.v
theories/BaseProofs.v
theories/BaseSolve.v
theories/PropBase.v
theories/PropAtan.v
theories/PropCalls.v
theories/SpecIso.v
theories/IsoProofs.v
theories/IsoClone.v
theories/PropIso.v
theories/SpecVerdict.v
theories/VerdictProofs.v
theories/PropVerdict.v
theories/StayProofs.v
theories/PropStay.v
theories/CacheProofs.v
theories/PropCache.v
theories/NamesProofs.v
theories/PropNames.v
theories/SpecUnit.v
theories/UnitLin.v
theories/UnitProofs.v
theories/UnitSolve.v
theories/PropUnit.v
theories/SpecSense.v
theories/SenseLin.v
theories/SenseProofs.v
theories/SenseSolve.v
theories/PropSense.v
theories/SpecMirror.v
theories/MirrorLin.v
theories/MirrorProofs.v
theories/MirrorSolve.v
theories/PropMirror.v
theories/SpecPlace.v
theories/PlaceProofs.v
theories/PlaceRun.v
theories/PropPlace.v
theories/PlaceLinks.v
theories/PropLinks.v
theories/SpecShuffle.v
theories/ShuffleProofs.v
theories/PropShuffle.v
theories/SpecObey.v
theories/ObeyProofs.v
theories/PropObey.v
