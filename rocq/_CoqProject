-Q theories Verif
theories/Base.v
theories/PolyModel.v
theories/PolySpec.v
theories/PolyProofs.v
theories/VertexModel.v
theories/VertexSpec.v
theories/VertexProofs.v
theories/TrajModel.v
theories/TrajSpec.v
theories/TrajProofs.v
theories/ExtremaProofs.v
theories/TrajOpsProofs.v
theories/RangeProofs.v
theories/Examples.v
theories/PropertiesPoly.v
theories/TrajFinal.v
theories/PropertiesTraj.v
theories/PropertiesVertex.v
theories/WaypointModel.v
theories/WaypointSpec.v
theories/WaypointProofs.v
theories/PropertiesWaypoint.v
theories/Names.v
theories/DynModel.v
theories/DynSpec.v
theories/DynProofs.v
theories/DynFrame.v
theories/StopAndGo.v
theories/DynTrace.v
theories/DynQueue.v
theories/DynMore.v
theories/EvalProofs.v
theories/DynScenario.v
theories/PropertiesDyn.v
theories/PropertiesReq.v
theories/PropertiesEval.v
theories/PropertiesLife.v
theories/PropertiesLife2.v
theories/PropertiesLife3.v
theories/ConcModel.v
theories/ConcSpec.v
theories/ConcCheck.v
theories/ConcProofs.v
theories/PropertiesConc.v
theories/PropertiesConc2.v
theories/PropertiesFollow.v
theories/PropertiesGrow.v
theories/PropertiesLatest.v
theories/PropertiesBatch.v
theories/PropertiesHandle.v
theories/LinOptModel.v
theories/LinAlg.v
theories/LinOptSpec.v
theories/LinInverse.v
theories/LinReorder.v
theories/LinProofs.v
theories/LinCost.v
theories/LinFinal.v
theories/PropertiesLin.v
theories/NonlinModel.v
theories/NonlinSpec.v
theories/NonlinProofs.v
theories/NonlinFinal.v
theories/PropertiesNonlin.v
theories/FloatModel.v
theories/ComputeModel.v
theories/ComputeSpec.v
theories/ComputeProofs.v
theories/PropertiesEndToEnd.v
theories/MotionModel.v
theories/PropertiesMotion.v
theories/FloatEval.v
theories/FloatProofs.v
theories/PropertiesFloat.v
theories/TimingModel.v
theories/PropertiesTiming.v
theories/RotModel.v
theories/RotProofs.v
theories/RotDeriv.v
theories/RotOmega.v
theories/PropertiesRot.v
theories/SamplingModel.v
theories/PropertiesSampling.v
theories/PropertiesQuat.v
theories/IoModel.v
theories/DoubleProofs.v
theories/PropertiesIo.v
theories/PropertiesTable.v
theories/RpolyModel.v
theories/RpolySpec.v
theories/RpolyProofs.v
theories/RpolyMain.v
theories/PropertiesRpoly.v
theories/GenModel.v
theories/PropertiesGen.v
theories/MatrixModel.v
theories/PropertiesMatrix.v
theories/LinUnique.v
theories/PropertiesLin2.v
theories/CandSampleModel.v
theories/PropertiesCand.v
theories/RotorModel.v
theories/PropertiesRotor.v
theories/TrajVertexModel.v
theories/HandleModel.v
theories/PropertiesTrajVertex.v
theories/SpeedProofs.v
theories/PropertiesSpeed.v
theories/EqModel.v
theories/PropertiesEq.v
theories/RoundModel.v
theories/RoundProofs.v
theories/RoundTime.v
theories/PropertiesRound.v
theories/ScheduleModel.v
theories/PropertiesSchedule.v
theories/PropertiesTorn.v
theories/FineModel.v
theories/PropertiesFine.v
theories/PropertiesRace.v
theories/TestUtilModel.v
theories/PropertiesTestUtil.v
theories/LinScale.v
theories/PropertiesScale.v
theories/PropertiesGrad.v
theories/WpObjModel.v
theories/PropertiesWp.v
theories/PropertiesLive.v
theories/PropertiesLive2.v
theories/PropertiesApply.v
theories/PropertiesApply2.v
theories/PropertiesShift.v
theories/PropertiesSettle.v
theories/PropertiesJump.v
theories/PropertiesConst.v
