-Q theories Verif
theories/Spec.v
theories/SpecConstraints.v
theories/Smoothing.v
theories/ConstraintsModel.v
theories/ConstraintStatements.v
theories/SmoothingProofs.v
theories/PartialLib.v
theories/ConstraintProofs.v
theories/ConstraintSemantics.v
theories/PropConstraints.v
theories/SpecCosts.v
theories/CostsModel.v
theories/CostStatements.v
theories/QuadLib.v
theories/CostProofs.v
theories/CostProofs2.v
theories/CostProofs3.v
theories/CostProofs4.v
theories/CostProofs5.v
theories/PropCosts.v
theories/SpecLayout.v
theories/SpecState.v
theories/Labeller.v
theories/LabellerProofs.v
theories/Layout.v
theories/LayoutProofs.v
theories/StateVectorProofs.v
theories/LabelFilters.v
theories/LayoutCompose.v
theories/PropLayout.v
theories/SpecQuaternion.v
theories/Quaternion.v
theories/QuaternionProofs.v
theories/PropQuaternion.v
theories/SpecGeometry.v
theories/RectFoot.v
theories/RectFootProofs.v
theories/PropRectFoot.v
theories/SpecReference.v
theories/PosRef.v
theories/PropPosRef.v
theories/SpecSettings.v
theories/SettingsModel.v
theories/PropSettings.v
theories/SpecContainers.v
theories/StateModel.v
theories/PropState.v
theories/SpecTimely.v
theories/Timely.v
theories/PropTimely.v
theories/SpecKinDyn.v
theories/KinDynCache.v
theories/PropKinDyn.v
theories/ServerModel.v
theories/PropServer.v
theories/SpecUtilities.v
theories/GroundModel.v
theories/GroundProofs.v
theories/PropGround.v
theories/FillModel.v
theories/FillProofs.v
theories/PropFill.v
theories/GuessModel.v
theories/PropGuess.v
theories/SpecWalking.v
theories/WalkingModel.v
theories/PropWalking.v
theories/SpecBounds.v
theories/BoundsModel.v
theories/BoundsProofs.v
theories/PropBounds.v
theories/SolverModel.v
theories/SolverProofs.v
theories/PropSolver.v
theories/SpecExpressions.v
theories/LeviCache.v
theories/LeviCacheProofs.v
theories/LeviCacheEval.v
theories/LeviCacheUser.v
theories/LeviCacheRefine.v
theories/PropLevi.v
theories/SpecDynamics.v
theories/DynamicsModel.v
theories/DynamicsLib.v
theories/DynamicsProofs.v
theories/DynamicsJac.v
theories/DynamicsHess.v
theories/DynamicsWitness.v
theories/DynamicsLayout.v
theories/PropDynamics.v
theories/SpecDerivatives.v
theories/LeviExpr.v
theories/LeviWf.v
theories/LeviMat.v
theories/LeviPost.v
theories/LeviMul.v
theories/LeviAdd.v
theories/LeviAccess.v
theories/LeviDeriv.v
theories/LeviBuild.v
theories/LeviBuildProofs.v
theories/LeviDerivCache.v
theories/PropDeriv.v
theories/SpecProblem.v
theories/ProblemModel.v
theories/ProblemProofs.v
theories/PropProblem.v
theories/SpecRigid.v
theories/Rigid.v
theories/RigidCalc.v
theories/KinTree.v
theories/KinModel.v
theories/KinLib.v
theories/QuatCurve.v
theories/KinMotion.v
theories/KinUsers.v
theories/KinProofs.v
theories/KinExist.v
theories/KinInstance.v
theories/PropKin.v
theories/SpecBase.v
theories/BaseModel.v
theories/BaseProofs.v
theories/PropBase.v
theories/MixLib.v
theories/SymModel.v
theories/SymProofs.v
theories/SymKin.v
theories/PropSym.v
theories/SpecFeet.v
theories/FeetModel.v
theories/FeetProofs.v
theories/PropFeet.v
theories/RatLib.v
theories/ContactModel.v
theories/ContactProofs.v
theories/ContactCode.v
theories/PropContact.v
theories/SpecCom.v
theories/ComModel.v
theories/ComLib.v
theories/ComProofs.v
theories/ComHess.v
theories/ComCode.v
theories/PropCom.v
theories/ComPosModel.v
theories/ComPosProofs.v
theories/PropComPos.v
theories/SymMove.v
theories/SpecOri.v
theories/OriModel.v
theories/OriProofs.v
theories/OriMix.v
theories/OriCode.v
theories/OriExist.v
theories/PropOri.v
theories/SpecAng.v
theories/AngModel.v
theories/AngProofs.v
theories/PropAng.v
theories/SpecMom.v
theories/MomModel.v
theories/MomProofs.v
theories/PropMom.v
theories/SpecCmm.v
theories/CmmModel.v
theories/CmmProofs.v
theories/PropCmm.v
theories/PollModel.v
theories/PropPoll.v
theories/SpecMib.v
theories/MibModel.v
theories/MibLib.v
theories/MibProofs.v
theories/MibDouble.v
theories/PropMib.v
theories/CurveLib.v
theories/CmmExprModel.v
theories/CmmExprProofs.v
theories/PropCmmHess.v
theories/SpecStatic.v
theories/StaticModel.v
theories/StaticProofs.v
theories/StaticCalc.v
theories/PropStatic.v
theories/SpecTorque.v
theories/TorqueModel.v
theories/TorqueProofs.v
theories/PropTorque.v
theories/TorqueJoints.v
theories/PropTorqueJoints.v
theories/PropTorqueQuaternion.v
