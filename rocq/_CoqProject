-Q theories Verif
theories/ArithCostProofs.v
theories/ArithCostProofs2.v
theories/ArithCostProofs3.v
theories/ArithCostSpec.v
theories/ArithCostSpec2.v
theories/ArithModel.v
theories/ArithProofs.v
theories/ArithProofs10.v
theories/ArithProofs11.v
theories/ArithProofs12.v
theories/ArithProofs13.v
theories/ArithProofs14.v
theories/ArithProofs15.v
theories/ArithProofs16.v
theories/ArithProofs17.v
theories/ArithProofs18.v
theories/ArithProofs2.v
theories/ArithProofs3.v
theories/ArithProofs4.v
theories/ArithProofs5.v
theories/ArithProofs6.v
theories/ArithProofs7.v
theories/ArithProofs8.v
theories/ArithProofs9.v
theories/ArithSpec.v
theories/AwayProofs.v
theories/AwayProofs2.v
theories/AwaySpec.v
theories/Base.v
theories/BitsModel.v
theories/BitsProofs.v
theories/BitsProofs2.v
theories/BitsSpec.v
theories/BuilderModel.v
theories/CircProofs.v
theories/CircProofs2.v
theories/CmatProofs.v
theories/CondProofs.v
theories/CondToffProofs.v
theories/ConjProofs.v
theories/ConjSpec.v
theories/ConserveProofs.v
theories/ConserveProofs2.v
theories/CostProofs.v
theories/CostProofs2.v
theories/CostProofs3.v
theories/CostProofs4.v
theories/CostSpec.v
theories/DebugModel.v
theories/DebugSpec.v
theories/DefaultModel.v
theories/DenProofs.v
theories/DenSpec.v
theories/DistProofs.v
theories/DistSpec.v
theories/EndProofs.v
theories/EndProofs2.v
theories/EndProofs3.v
theories/EndProofs4.v
theories/EndSpec.v
theories/ExampleModel.v
theories/ExampleModel2.v
theories/ExpInvModel.v
theories/ExpInvProofs.v
theories/FloatMatProofs.v
theories/FloatModel.v
theories/FloatOpProofs.v
theories/FloatOpSpec.v
theories/FloatPieceProofs.v
theories/FloatProofs.v
theories/FloatProofs2.v
theories/FloatProofs3.v
theories/FloatProofs4.v
theories/FloatProofs5.v
theories/FloatProofs6.v
theories/FloatProofs7.v
theories/FloatProofs8.v
theories/FloatSpec.v
theories/FunOpModel.v
theories/FuseProofs.v
theories/FuseSpec.v
theories/GateProofs.v
theories/HandleProofs.v
theories/HashModel.v
theories/HashSpec.v
theories/HistoryProofs.v
theories/HistoryProofs2.v
theories/HistorySpec.v
theories/Instances.v
theories/InvValueProofs.v
theories/InvertProofs.v
theories/KeepProofs.v
theories/KindProofs.v
theories/KronProofs.v
theories/KronSpec.v
theories/LinkProofs.v
theories/LocalProofs.v
theories/MacroModel.v
theories/MacroProofs.v
theories/MacroSpec.v
theories/MatProofs.v
theories/MeasureModel.v
theories/MeasureProofs.v
theories/MeasureProofs2.v
theories/MeasureSpec.v
theories/MoveProofs.v
theories/MoveSpec.v
theories/NonemptyProofs.v
theories/OpsFinal.v
theories/OpsModel.v
theories/OpsProofs.v
theories/OpsProofs2.v
theories/OpsProofs3.v
theories/OpsProofs4.v
theories/OpsSpec.v
theories/OutcomeProofs.v
theories/OutcomeProofs2.v
theories/OutcomeProofs3.v
theories/OutcomeProofs4.v
theories/OutcomeSpec.v
theories/OutsideProofs.v
theories/OutsideSpec.v
theories/PhaseProofs.v
theories/ProgCostProofs.v
theories/ProgCostSpec.v
theories/ProgramModel.v
theories/ProgramProofs.v
theories/ProgramProofs2.v
theories/ProgramProofs3.v
theories/ProgramSpec.v
theories/ProjSpec.v
theories/PropAdjoint.v
theories/PropArith.v
theories/PropArithCost.v
theories/PropArithCost2.v
theories/PropAway.v
theories/PropBits.v
theories/PropBuilder.v
theories/PropCmat.v
theories/PropCond.v
theories/PropCost.v
theories/PropCost2.v
theories/PropDebug.v
theories/PropDist.v
theories/PropDoc.v
theories/PropEnd.v
theories/PropEndFloat.v
theories/PropExp.v
theories/PropFloat.v
theories/PropFloatOp.v
theories/PropFloatPiece.v
theories/PropFull.v
theories/PropFunOp.v
theories/PropFuse.v
theories/PropGates.v
theories/PropHash.v
theories/PropHash2.v
theories/PropHist.v
theories/PropKron.v
theories/PropMacro.v
theories/PropMacro2.v
theories/PropMacroEx.v
theories/PropMatrix.v
theories/PropMeasure.v
theories/PropMod.v
theories/PropModInv.v
theories/PropModInv2.v
theories/PropMoves.v
theories/PropNest.v
theories/PropNew.v
theories/PropOps.v
theories/PropOutcome.v
theories/PropOutside.v
theories/PropPhase.v
theories/PropProgram.v
theories/PropQfft.v
theories/PropQfft2.v
theories/PropQfftCirc.v
theories/PropQfftCost.v
theories/PropRead.v
theories/PropRead2.v
theories/PropReg.v
theories/PropRename.v
theories/PropRow.v
theories/PropRun.v
theories/PropSchedule.v
theories/PropShift.v
theories/PropSim.v
theories/PropSplit.v
theories/PropSquare.v
theories/PropStateOps.v
theories/PropSub.v
theories/PropSub2.v
theories/PropTemp.v
theories/PropTests.v
theories/PropTimes.v
theories/PropTimesInv.v
theories/PropWord.v
theories/PropWord2.v
theories/PropWord3.v
theories/PropWord4.v
theories/QfftCircProofs.v
theories/QfftCircSpec.v
theories/QfftCostProofs.v
theories/QfftCostSpec.v
theories/QfftModel.v
theories/QfftProofs.v
theories/QfftProofs2.v
theories/QfftProofs3.v
theories/QfftSpec.v
theories/ReadProofs.v
theories/ReadProofs2.v
theories/ReadProofs3.v
theories/ReadProofs4.v
theories/ReadSpec.v
theories/RegProofs.v
theories/RegProofs2.v
theories/RegSpec.v
theories/RenameProofs.v
theories/RenameProofs2.v
theories/RenameSpec.v
theories/RotProofs.v
theories/RunProofs.v
theories/RunSpec.v
theories/ScheduleModel.v
theories/ScheduleModel2.v
theories/ScheduleProofs.v
theories/ScopeProofs.v
theories/ShapeProofs.v
theories/ShapeProofs2.v
theories/ShapeProofs3.v
theories/ShapeProofs4.v
theories/ShapeSpec.v
theories/ShiftProofs.v
theories/ShiftProofs2.v
theories/ShiftSpec.v
theories/SimModel.v
theories/SimProofs.v
theories/SimProofs2.v
theories/SimSpec.v
theories/SoundSpec.v
theories/SplitModel.v
theories/SplitSpec.v
theories/StateOpsModel.v
theories/StateOpsProofs.v
theories/SubProofs.v
theories/SubProofs2.v
theories/SubProofs3.v
theories/SubProofs4.v
theories/SubProofs5.v
theories/SubProofs6.v
theories/SubSpec.v
theories/SwapProofs.v
theories/TempProofs.v
theories/TempProofs2.v
theories/TempProofs3.v
theories/TempProofs4.v
theories/TempSpec.v
theories/TextModel.v
theories/TidyProofs.v
theories/TimesSpec.v
theories/Toff3Proofs.v
theories/ToffoliProofs.v
theories/TraceProofs.v
theories/UnitaryProofs.v
theories/WeakProofs.v
theories/WholeProofs.v
theories/WholeProofs2.v
theories/WholeProofs3.v
theories/WholeSpec.v
theories/WordModel.v
theories/WordModel2.v
theories/WordModel4.v
theories/WordProofs.v
theories/WordProofs2.v
theories/WordProofs3.v
theories/WordSpec.v
