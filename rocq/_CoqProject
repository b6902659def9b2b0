-Q theories Verif
theories/Pure.v
theories/PureLemmas.v
theories/Prog.v
theories/Model.v
theories/Machine.v
theories/PropArith.v
theories/Logic.v
theories/Core.v
theories/Side.v
theories/Log.v
theories/IncInv.v
theories/IncFacts.v
theories/IncSteps.v
theories/IncSteps2.v
theories/IncSteps3.v
theories/IncSteps4.v
theories/IncSteps5.v
theories/IncSteps6.v
theories/BlkInv.v
theories/BlkSteps.v
theories/BlkSteps2.v
theories/BlkSteps3.v
theories/BlkSteps4.v
theories/IncGen.v
theories/IncWorld.v
theories/IncLift.v
theories/IncLift2.v
theories/IncLift3.v
theories/IncRules.v
theories/IncRules2.v
theories/IncRules3.v
theories/IncRules4.v
theories/BlkRules.v
theories/IncProg1.v
theories/IncProg2.v
theories/IncProg2b.v
theories/IncProg3.v
theories/IncProg4.v
theories/IncProg5.v
theories/IncProg6.v
theories/IncProg7.v
theories/IncProg8.v
theories/IncProg9.v
theories/Spec.v
theories/IncOp.v
theories/IncMach1.v
theories/IncMach2.v
theories/IncMach3.v
theories/IncMach4.v
theories/IncMach5.v
theories/IncMach6.v
theories/IncMach7.v
theories/Main1.v
theories/Props.v
theories/SpecLemmas.v
theories/PropsProofs.v
theories/PropsProofs2.v
theories/PropsProofs3.v
theories/Derive.v
theories/LenCount.v
theories/LenRun.v
theories/Main2.v
theories/Examples2.v
theories/Findings.v
theories/WaitFree.v
theories/StackModel.v
theories/ParkerModel.v
theories/Locks.v
theories/Guards.v
theories/Client.v
theories/ClientProofs.v
theories/Main3.v
theories/Examples3.v
theories/Examples4.v
theories/Livelock.v
theories/LivelockEx.v
theories/Marks.v
theories/Marks2.v
theories/Marks3.v
theories/Marks4.v
theories/DropModel.v
theories/Drop.v
theories/DropEx.v
theories/Solo.v
theories/Solo2.v
theories/Solo3.v
theories/SoloMain.v
theories/SoloEx.v
theories/Dead1.v
theories/Dead2.v
theories/Dead3.v
theories/Dead4.v
theories/Dead5.v
theories/Dead6.v
theories/DeadMain.v
theories/BDead1.v
theories/BDead2.v
theories/BDead3.v
theories/BDead4.v
theories/BDead5.v
theories/BDead6.v
theories/BDeadMain.v
theories/Reserve.v
theories/Capacity.v
theories/CapacityEx.v
theories/Main4.v
theories/Api.v
theories/ApiEx.v
theories/Counters.v
theories/CountersEx.v
theories/Panics.v
theories/Words.v
theories/Layout.v
theories/Weak.v
theories/WeakParker.v
theories/WeakMap.v
theories/WeakMapProof.v
theories/WeakMapMain.v
theories/NoWait.v
theories/NoWaitEx.v
theories/SoloX.v
theories/SoloB.v
theories/SoloB2.v
theories/SoloBMain.v
theories/SoloBEx.v
theories/Owe.v
theories/OweMain.v
theories/OweEx.v
theories/SoloG.v
theories/SoloC.v
theories/SoloC2.v
theories/SoloCMain.v
theories/SoloCEx.v
theories/WeakBlk.v
theories/WeakBlkProof.v
theories/WeakBlkMain.v
theories/WeakLen.v
theories/WeakStack.v
theories/Audit.v
