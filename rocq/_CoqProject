-Q theories Verif
theories/LinAlg.v
theories/RealAux.v
theories/Py.v
theories/FactsReal.v
theories/FactsLinAlg.v
theories/ModelRot.v
theories/SpecRot.v
theories/FactsRot.v
theories/FactsRot2.v
theories/FactsDeriv.v
theories/FactsSlerp.v
theories/PropRot.v
theories/ModelTransform.v
theories/ModelRobot.v
theories/ModelKin.v
theories/SpecKin.v
theories/FactsKin.v
theories/FactsJac.v
theories/PropKin.v
theories/ModelSub.v
theories/SpecSub.v
theories/FactsSub.v
theories/PropSub.v
theories/ModelInvkin.v
theories/SpecInvkin.v
theories/FactsInvkin.v
theories/FactsIkGeo.v
theories/FactsRobot6.v
theories/FactsIkErr.v
theories/FactsIkMut.v
theories/FactsUr.v
theories/FactsIkOk.v
theories/FactsUrFar.v
theories/PropInvkin.v
theories/PropRobot6.v
theories/PropUr.v
theories/SpecEquiv.v
theories/FactsEquiv.v
theories/FactsIter.v
theories/PropEquiv.v
theories/PropIter.v
theories/ModelUrdf.v
theories/SpecUrdf.v
theories/FactsUrdf.v
theories/FactsInertia.v
theories/PropUrdf.v
theories/ModelRos.v
theories/SpecRos.v
theories/PropRos.v
theories/ModelRR.v
theories/SpecRR.v
theories/FactsRR.v
theories/PropRR.v
theories/ModelTess.v
theories/SpecTess.v
theories/FactsTess.v
theories/PropTess.v
theories/FactsTessIk.v
theories/FactsTessEnv.v
theories/PropTessIk.v
theories/ModelFloat.v
theories/FactsNorm.v
theories/SpecRound.v
theories/FactsRound.v
theories/FactsB64.v
theories/FactsExact.v
theories/FactsFloat.v
theories/PropFloat.v
theories/PropB64.v
theories/PropPre.v
theories/PropUrdf2.v
theories/PropRR2.v
theories/PropRos2.v
theories/ModelTess2.v
theories/PropTess2.v
theories/PropReal.v
theories/PropPi.v
theories/PropSlerp.v
theories/ModelFloat2.v
theories/SpecRound2.v
theories/FactsRound2.v
theories/PropJac.v
theories/ModelFloat3.v
theories/PropNorm.v
theories/SpecMove.v
theories/PropMove.v
theories/FactsTrack.v
theories/SpecArc.v
theories/FactsAngle.v
theories/PropElbow.v
theories/PropAngle.v
theories/PropReach.v
theories/FactsSumsq.v
theories/SpecArc2.v
theories/PropR2rot.v
theories/SpecConverge.v
theories/FactsTaylor.v
theories/FactsConverge.v
theories/PropConverge.v
theories/ModelMem.v
theories/SpecMem.v
theories/FactsMem.v
theories/PropMem.v
theories/ModelMisc.v
theories/SpecMisc.v
theories/PropMisc.v
theories/SpecEnd.v
theories/PropEnd.v
theories/ModelFloat4.v
theories/SpecQuat64.v
theories/FactsNear.v
theories/PropQuat64.v
theories/ModelFloat5.v
theories/SpecDrift.v
theories/FactsTrip.v
theories/FactsDrift.v
theories/PropDrift.v
theories/ModelFloat6.v
theories/ModelFloat7.v
theories/SpecRpy.v
theories/FactsRpy.v
theories/PropRpy.v
theories/FactsIter64.v
theories/PropIter64.v
theories/PropIterEnd.v
theories/ModelFiles.v
theories/SpecPath.v
theories/PropFiles.v
theories/ModelFloat8.v
theories/PropQ2rot64.v
theories/ModelTess3.v
theories/SpecCell.v
theories/PropCell.v
theories/ModelFloat9.v
theories/SpecSub4.v
theories/PropSub4.v
theories/ModelFloat10.v
theories/FactsSub2.v
theories/PropSub2.v
theories/ModelFloat11.v
theories/FactsIk64.v
theories/FactsPath64.v
theories/FactsJoint64.v
theories/FactsArm64.v
theories/FactsWrist64.v
theories/SpecRobot64.v
theories/FactsRobot64.v
theories/PropRobot64.v
theories/PropRobotR.v
theories/ModelFloat12.v
theories/FactsUr64.v
theories/PropUr64.v
theories/PropUrR.v
theories/SpecReach.v
theories/PropReach2.v
theories/FactsFind64.v
theories/FactsSeek64.v
theories/FactsFound64.v
theories/SpecFind.v
theories/PropFind64.v
theories/FactsUrFind64.v
theories/PropUrFind64.v
theories/SpecSlerp64.v
theories/FactsArc4.v
theories/PropSlerpArc.v
theories/PropTrack64.v
theories/SpecNear64.v
theories/FactsDist64.v
theories/PropNear64.v
theories/SpecTrip64.v
theories/FactsTrip64.v
theories/PropTrip64.v
theories/ModelFloat13.v
theories/SpecCompare64.v
theories/FactsCompare64.v
theories/PropCompare64.v
theories/ModelFloat14.v
theories/SpecEquiv64.v
theories/FactsEquiv64.v
theories/PropEquiv64.v
theories/ModelFloat15.v
theories/FactsScrew64.v
theories/PropScrew64.v
