-Q theories Verif
theories/LensModel.v
theories/LensSpec.v
theories/LensProofs.v
theories/LensProps.v
theories/NodesModel.v
theories/NodesSpec.v
theories/NodesBase.v
theories/NodesInv.v
theories/NodesExec.v
theories/NodesEv.v
theories/NodesRoots.v
theories/NodesNotify.v
theories/NodesTold.v
theories/NodesCount.v
theories/NodesFacts.v
theories/NodesWrite.v
theories/NodesApi.v
theories/NodesApi2.v
theories/NodesTrackSpec.v
theories/NodesTrack.v
theories/NodesEndsSpec.v
theories/NodesEnds.v
theories/NodesEndless.v
theories/NodesEndsProps.v
theories/NodesProps.v
theories/NodesTrackFacts.v
theories/NodesSteady.v
theories/NodesThin.v
theories/NodesTwin.v
theories/NodesTrackProps.v
theories/NodesDropSpec.v
theories/NodesDrop.v
theories/NodesDropRun.v
theories/NodesDropCmd.v
theories/NodesDropSim.v
theories/NodesForget.v
theories/NodesDropProps.v
theories/LoopModel.v
theories/LoopSpec.v
theories/LoopProofs.v
theories/LoopSafe.v
theories/LoopEnds.v
theories/LoopProps.v
theories/SdlModel.v
theories/SdlSpec.v
theories/SdlProofs.v
theories/SdlFps.v
theories/SdlStop.v
theories/SdlModes.v
theories/SdlProps.v
theories/StoreModel.v
theories/StoreSpec.v
theories/StoreSteps.v
theories/StoreInv.v
theories/StoreJobs.v
theories/StoreTold.v
theories/StoreQuiet.v
theories/StoreMain.v
theories/StoreExtraModel.v
theories/StoreSeq.v
theories/StoreThunk.v
theories/StoreLast.v
theories/FutureModel.v
theories/FutureSpec.v
theories/FutureProofs.v
theories/FutureHist.v
theories/FutureProps.v
theories/StoreRuns.v
theories/StoreProps.v
theories/StoreModels.v
theories/StoreEndsSpec.v
theories/StoreEnds.v
theories/StoreEndless.v
theories/StoreEndsProps.v
theories/CounterModel.v
theories/CounterSpec.v
theories/CounterProofs.v
theories/CounterProps.v
theories/ImguiModel.v
theories/ImguiSpec.v
theories/ImguiProofs.v
theories/ImguiProps.v
theories/DebuggerModel.v
theories/DebuggerSpec.v
theories/DebuggerSim.v
theories/DebuggerLine.v
theories/DebuggerTree.v
theories/DebuggerSummary.v
theories/DebuggerPlain.v
theories/DebuggerProps.v
theories/WatchModel.v
theories/WatchSpec.v
theories/WatchFrame.v
theories/WatchPass.v
theories/WatchLog.v
theories/WatchLaws.v
theories/WatchSilent.v
theories/WatchValues.v
theories/WatchProps.v
theories/DepsModel.v
theories/DepsSpec.v
theories/DepsProofs.v
theories/DepsExact.v
theories/DepsProps.v
theories/ContextModel.v
theories/ContextSpec.v
theories/ContextProofs.v
theories/ContextProps.v
theories/ExtraModel.v
theories/ExtraProofs.v
theories/ExtraProps.v
theories/CerealModel.v
theories/CerealSpec.v
theories/CerealProofs.v
theories/CerealExact.v
theories/CerealProps.v
theories/JsonModel.v
theories/JsonSpec.v
theories/JsonProofs.v
theories/JsonExact.v
theories/JsonProps.v
theories/ServerModel.v
theories/ServerSpec.v
theories/ServerProofs.v
theories/ServerProps.v
theories/WithModel.v
theories/WithSpec.v
theories/WithProofs.v
theories/WithWrites.v
theories/WithFacts.v
theories/WithLatest.v
theories/WithCalls.v
theories/WithProps.v
theories/QmlModel.v
theories/QmlSpec.v
theories/QmlProofs.v
theories/QmlProps.v
theories/SmartModel.v
theories/SmartSpec.v
theories/SmartProofs.v
theories/SmartFacts.v
theories/SmartProps.v
theories/SnakeModel.v
theories/SnakeSpec.v
theories/SnakeProofs.v
theories/SnakeProps.v
theories/TodoModel.v
theories/TodoSpec.v
theories/TodoProofs.v
theories/TodoProps.v
theories/QtModel.v
theories/QtSpec.v
theories/QtProofs.v
theories/QtSteps.v
theories/QtProps.v
theories/PongModel.v
theories/PongSpec.v
theories/PongSegments.v
theories/PongProofs.v
theories/PongCross.v
theories/PongWalls.v
theories/PongProps.v
theories/UtilModel.v
theories/UtilSpec.v
theories/UtilProofs.v
theories/UtilRank.v
theories/UtilProps.v
theories/AsioModel.v
theories/AsioSpec.v
theories/AsioProofs.v
theories/AsioThreads.v
theories/AsioDone.v
theories/AsioUse.v
theories/AsioInside.v
theories/AsioProps.v
theories/QtLoopModel.v
theories/QtLoopSpec.v
theories/QtLoopProofs.v
theories/QtLoopUse.v
theories/QtLoopProps.v
theories/LifeModel.v
theories/LifeSpec.v
theories/LifeProofs.v
theories/LifeProps.v
theories/OwnModel.v
theories/OwnSpec.v
theories/OwnProofs.v
theories/OwnDebug.v
theories/OwnProps.v
theories/ThrowModel.v
theories/ThrowSpec.v
theories/ThrowProofs.v
theories/ThrowCommit.v
theories/ThrowLate.v
theories/ThrowWrite.v
theories/ThrowProps.v
theories/GuiModel.v
theories/GuiSpec.v
theories/GuiBasics.v
theories/GuiShown.v
theories/GuiFollow.v
theories/GuiWait.v
theories/GuiFail.v
theories/GuiAsk.v
theories/GuiKeys.v
theories/GuiView.v
theories/GuiKept.v
theories/GuiProps.v
theories/MoveModel.v
theories/MoveSpec.v
theories/MoveProofs.v
theories/MoveSmartModel.v
theories/MoveSmart.v
theories/MoveProps.v
theories/TermModel.v
theories/TermSpec.v
theories/TermProofs.v
theories/TermRuns.v
theories/TermProps.v
theories/WebModel.v
theories/WebSpec.v
theories/WebProofs.v
theories/WebProps.v
theories/CounterSdlModel.v
theories/CounterSdlSpec.v
theories/CounterSdlProofs.v
theories/CounterSdlProps.v
theories/SnakeQmlModel.v
theories/SnakeQmlSpec.v
theories/SnakeQmlProofs.v
theories/SnakeQmlProps.v
