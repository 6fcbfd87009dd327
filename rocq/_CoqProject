-Q theories Verif
theories/SegModel.v
theories/SegSpec.v
theories/SegProofs.v
theories/SegProps.v
theories/ViewModel.v
theories/ViewProofs.v
theories/ViewProps.v
theories/EcsModel.v
theories/EcsSpec.v
theories/EcsProofs.v
theories/EcsOrderProofs.v
theories/EcsMainProofs.v
theories/EcsSolveProofs.v
theories/EcsFinalProofs.v
theories/EcsOverflowProofs.v
theories/EcsProps.v
theories/EcsJacModel.v
theories/EcsJacSpec.v
theories/EcsJacProofs.v
theories/EcsDerivProofs.v
theories/NanModel.v
theories/NanProofs.v
theories/EcsRhsModel.v
theories/EcsRhsSpec.v
theories/EcsRhsProofs.v
theories/EcsRhsExamples.v
theories/EcsProps2.v
theories/ImplModel.v
theories/ImplSpec.v
theories/ImplProofs.v
theories/HierModel.v
theories/HierSpec.v
theories/HierProofs.v
theories/ImplProps.v
theories/HierRhsProofs.v
theories/HierErrProofs.v
theories/HierExamples.v
theories/HierProps.v
theories/SatModel.v
theories/SatProofs.v
theories/SatProps.v
theories/SolveModel.v
theories/SolveSpec.v
theories/SolveProofs.v
theories/SolveBySubProofs.v
theories/SolveLinkProofs.v
theories/SolveProps.v
theories/LineModel.v
theories/LineProofs.v
theories/LineProps.v
theories/BySubModel.v
theories/BySubSpec.v
theories/BySubProofs.v
theories/BySubRowProofs.v
theories/BySubRowFinal.v
theories/BySubRhsProofs.v
theories/BySubMergeProofs.v
theories/DirProofs.v
theories/SaveProofs.v
theories/BySubExamples.v
theories/BySubProps.v
theories/FunModel.v
theories/FunSpec.v
theories/FunProofs.v
theories/FdModel.v
theories/FdProofs.v
theories/EqModel.v
theories/EqProofs.v
theories/EqSolverProofs.v
theories/FunExamples.v
theories/FunProps.v
theories/LockModel.v
theories/LockProofs.v
theories/ImplFunModel.v
theories/ImplFunProofs.v
theories/ExplExamples.v
theories/ExplProps.v
theories/TreeModel.v
theories/TreeSpec.v
theories/TreeProofs.v
theories/TreeExamples.v
theories/TreeMain.v
theories/TreeProps.v
theories/RedModel.v
theories/RedProofs.v
theories/RedDerivProofs.v
theories/RedRowProofs.v
theories/RedExamples.v
theories/RedProps.v
theories/DescentModel.v
theories/DescentSpec.v
theories/DescentProofs.v
theories/DescentMain.v
theories/DescentExamples.v
theories/DescentProps.v
theories/ContactModel.v
theories/ContactProofs.v
theories/ContactMain.v
theories/ContactProps.v
theories/Geo.v
theories/GeoLemmas.v
theories/SymModel.v
theories/SymSpec.v
theories/SymProofs.v
theories/SymMain.v
theories/SymCases.v
theories/SymExamples.v
theories/SymProps.v
theories/FunDiffProofs.v
theories/FunDiffProps.v
theories/HeapModel.v
theories/HeapSpec.v
theories/HeapProofs.v
theories/HeapMain.v
theories/HeapInv.v
theories/HeapFinal.v
theories/HeapExamples.v
theories/HeapCases.v
theories/HeapProps.v
theories/Rigid.v
theories/DistModel.v
theories/DistProofs.v
theories/RigidExamples.v
theories/DistMain.v
theories/DistExamples.v
theories/DistCases.v
theories/DistProps.v
theories/LogModel.v
theories/RotProofs.v
theories/LogSpec.v
theories/LogProofs.v
theories/LogMain.v
theories/LogPi.v
theories/LogDeriv.v
theories/LogSE3.v
theories/LogExamples.v
theories/LogProps.v
theories/GTModel.v
theories/GTSpec.v
theories/GTProofs.v
theories/GTJac.v
theories/GTMain.v
theories/GTDeriv.v
theories/GTTheorems.v
theories/GTExamples.v
theories/GTProps.v
theories/RTModel.v
theories/RTSpec.v
theories/SE3Proofs.v
theories/RTProofs.v
theories/RTExamples.v
theories/RTProps.v
theories/QPModel.v
theories/QPSpec.v
theories/QPProofs.v
theories/QPExamples.v
theories/QPProps.v
theories/ShapeModel.v
theories/ShapeSpec.v
theories/ShapeGeo.v
theories/ShapeProofs.v
theories/ShapeMain.v
theories/ShapeCases.v
theories/ShapeProps.v
theories/PinvModel.v
theories/PinvSpec.v
theories/PinvProofs.v
theories/PinvMain.v
theories/PinvStat.v
theories/PinvExamples.v
theories/MoeModel.v
theories/MoeProofs.v
theories/PinvProps.v
theories/RelComModel.v
theories/RelComSpec.v
theories/RelComProofs.v
theories/RelComExamples.v
theories/RelComProps.v
theories/ConfModel.v
theories/ConfSpec.v
theories/ConfProofs.v
theories/ConfExamples.v
theories/ConfProps.v
theories/ContactJacModel.v
theories/ContactJacSpec.v
theories/ContactNear.v
theories/ContactJacProofs.v
theories/ContactJacMain.v
theories/ContactJacCont.v
theories/LogAxis.v
theories/ContactJacFrame.v
theories/ContactJacThm.v
theories/ContactJacExamples.v
theories/ContactJacProps.v
theories/RTParent.v
theories/GTRef.v
theories/TimeModel.v
theories/TimeSpec.v
theories/TimeProofs.v
theories/TimeExamples.v
theories/TimeProps.v
theories/SerModel.v
theories/SerSpec.v
theories/SerProofs.v
theories/SerExamples.v
theories/SerProps.v
theories/VisModel.v
theories/VisSpec.v
theories/VisProofs.v
theories/VisExamples.v
theories/VisProps.v
theories/SfModel.v
theories/SfSpec.v
theories/SfProofs.v
theories/SfExamples.v
theories/SfProps.v
theories/RField.v
theories/ManModel.v
theories/ManSpec.v
theories/ManProofs.v
theories/ManExamples.v
theories/ManProps.v
theories/AccModel.v
theories/AccProofs.v
theories/AccSpec.v
theories/AccExamples.v
theories/AccProps.v
theories/IntModel.v
theories/IntSpec.v
theories/IntProofs.v
theories/ProjModel.v
theories/ProjProofs.v
theories/ProjSpec.v
theories/ProjExamples.v
theories/IntExamples.v
theories/IntProps.v
theories/ProjProps.v
theories/PlanModel.v
theories/PlanSpec.v
theories/PlanProofs.v
theories/PlanExamples.v
theories/PlanProps.v
theories/RReal.v
theories/AffModel.v
theories/AffSpec.v
theories/AffProofs.v
theories/AffMain.v
theories/AffBySub.v
theories/AffLine.v
theories/AffExamples.v
theories/AffProps.v
theories/FdFloatModel.v
theories/FdAccProofs.v
theories/FdAccProps.v
theories/NewtModel.v
theories/NewtSpec.v
theories/NewtProofs.v
theories/NewtBySub.v
theories/NewtLine.v
theories/NewtExamples.v
theories/NewtProps.v
theories/OneModel.v
theories/OneProofs.v
theories/OneProps.v
theories/IneqModel.v
theories/IneqSpec.v
theories/IneqProofs.v
theories/IneqMain.v
theories/IneqBounds.v
theories/IneqExamples.v
theories/IneqCases.v
theories/IneqProps.v
theories/OptModel.v
theories/OptSpec.v
theories/OptProofs.v
theories/OptMain.v
theories/OptLoop.v
theories/OptExamples.v
theories/OptCases.v
theories/OptProps.v
theories/NearSpec.v
theories/NearMat.v
theories/NearBall.v
theories/NearMain.v
theories/NearSolve.v
theories/NearExamples.v
theories/NearProps.v
theories/SvdBox.v
theories/SvdExist.v
theories/SvdMain.v
theories/SvdProps.v
theories/LimModel.v
theories/LimSpec.v
theories/LimScalar.v
theories/LimProofs.v
theories/LimMain.v
theories/LimExamples.v
theories/LimProps.v
theories/AffBack.v
theories/LimSub.v
theories/LimSubEx.v
theories/LimSubProps.v
theories/ViewCopy.v
theories/ShapeLine.v
theories/FunMerge.v
theories/SymFun.v
theories/SatBase.v
theories/OneConModel.v
theories/OneConProofs.v
theories/OneConExamples.v
theories/OneConProps.v
theories/RhsAssertModel.v
theories/RhsAssertProofs.v
theories/CmpModel.v
theories/CmpSpec.v
theories/CmpProofs.v
theories/CmpProps.v
theories/CbfModel.v
theories/CbfSpec.v
theories/CbfProofs.v
theories/CbfProps.v
theories/FdRobotModel.v
theories/FdRobotProofs.v
theories/FdRobotProps.v
theories/EquiModel.v
theories/EquiSpec.v
theories/EquiProofs.v
theories/EquiMain.v
theories/EquiProps.v
theories/SubmProofs.v
theories/SubmProps.v
theories/RelPoseModel.v
theories/RelPoseSpec.v
theories/RelPoseProofs.v
theories/RelPoseContact.v
theories/RelPoseCases.v
theories/RelPoseProps.v
theories/BoundModel.v
theories/BoundProofs.v
theories/BoundSpec.v
theories/BoundProps.v
