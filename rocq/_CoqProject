-Q theories Verif
theories/Word.v
theories/FpModel.v
theories/WordProofs.v
theories/FpProofs.v
theories/PolyRoots.v
theories/GF128.v
theories/GF128Ring.v
theories/GF128Field.v
theories/ListUtil.v
theories/Prime61.v
theories/BoolModel.v
theories/BoolSpec.v
theories/GfmulModel.v
theories/GfmulProofs.v
theories/PropField.v
theories/BoolProofs.v
theories/BoolAlg.v
theories/BoolThms.v
theories/BoolThms2.v
theories/PropBool.v
theories/ArithModel.v
theories/ArithSpec.v
theories/ArithProofs.v
theories/ArithShadow.v
theories/ArithAlg.v
theories/ArithThms.v
theories/ArithThms2.v
theories/ArithThms3.v
theories/ArithThms4.v
theories/ArithThms5.v
theories/PropArith.v
theories/BoolPolyModel.v
theories/BoolPolySpec.v
theories/BoolPolyProofs.v
theories/BoolPolyThms.v
theories/PropBoolPoly.v
theories/BoolIOModel.v
theories/BoolIOSpec.v
theories/BoolIOProofs.v
theories/BoolIOThms.v
theories/BoolIOThms2.v
theories/PropBoolIO.v
theories/TreeModel.v
theories/TreeSpec.v
theories/TreeProofs.v
theories/VoleModel.v
theories/VoleSpec.v
theories/LpnProofs.v
theories/CopeProofs.v
theories/MpfssProofs.v
theories/PoolModel.v
theories/PoolSpec.v
theories/PoolProofs.v
theories/VoleTripleModel.v
theories/VoleThms.v
theories/VoleThms2.v
theories/PropVole.v
theories/VoleF2kModel.v
theories/VoleF2kSpec.v
theories/VoleF2kProofs.v
theories/LpnWords.v
theories/PropVoleF2k.v
theories/EdaModel.v
theories/EdaSpec.v
theories/EdaStock.v
theories/EdaProofs.v
theories/EdaThms.v
theories/PropEda.v
theories/F2kModel.v
theories/F2kSpec.v
theories/F2kAlg.v
theories/F2kProofs.v
theories/F2kSim.v
theories/F2kThms.v
theories/PropF2k.v
theories/RamModel.v
theories/RamSpec.v
theories/RamAlg.v
theories/RamPack.v
theories/RamWide.v
theories/RamProd.v
theories/RamSess.v
theories/RamOrder.v
theories/RamThms.v
theories/RamLife.v
theories/PropRam.v
theories/LowMcModel.v
theories/LowMcSpec.v
theories/LowMcProofs.v
theories/LowMcCirc.v
theories/LowMcThms.v
theories/PropLowMc.v
theories/SessionModel.v
theories/SessionSpec.v
theories/SessionProofs.v
theories/SessionThms.v
theories/PropSession.v
theories/HideSpec.v
theories/HideProofs.v
theories/HideThms.v
theories/HideOuts.v
theories/AHideSpec.v
theories/AHideProofs.v
theories/AHideLock.v
theories/AHideThms.v
theories/AHideThms2.v
theories/F2kHide.v
theories/PropHide.v
theories/ThreadModel.v
theories/ThreadSpec.v
theories/ThreadProofs.v
theories/ThreadWork.v
theories/ThreadThms.v
theories/ThreadLpn.v
theories/PropThread.v
theories/FloatModel.v
theories/FloatSpec.v
theories/FloatProofs.v
theories/FloatThms.v
theories/PropFloat.v
theories/EndModel.v
theories/EndProofs.v
theories/PropEnd.v
theories/WireModel.v
theories/WireNet.v
theories/WireProofs.v
theories/WireAny.v
theories/PropWire.v
theories/AWireModel.v
theories/AWireNet.v
theories/AWireProofs.v
theories/AWireAny.v
theories/AWireFix.v
theories/PropAWire.v
theories/ClientModel.v
theories/ClientSpec.v
theories/ClientProofs.v
theories/PropClient.v
theories/DebugModel.v
theories/DebugProofs.v
theories/DebugSession.v
theories/PropDebug.v
theories/CheatModel.v
theories/CheatProofs.v
theories/CheatAlg.v
theories/CheatProofs2.v
theories/PropCheat.v
theories/CheatF2kModel.v
theories/CheatF2kProofs.v
theories/PropCheatF2k.v
theories/GameSpec.v
theories/CountAlg.v
theories/GameProofs.v
theories/GameBool.v
theories/GameArithSpec.v
theories/GameArith.v
theories/GameArith2.v
theories/GameSpread.v
theories/PropGame.v
theories/UnusedModel.v
theories/UnusedSpec.v
theories/UnusedProd.v
theories/UnusedCheat.v
theories/UnusedTree.v
theories/UnusedSmall.v
theories/PropUnused.v
theories/MpThreadModel.v
theories/MpThreadSpec.v
theories/MpThreadDiamond.v
theories/MpThreadPerm.v
theories/MpThreadFit.v
theories/MpThreadRun.v
theories/MpThreadItems.v
theories/MpThreadThms.v
theories/MpThreadTest.v
theories/PropMpThread.v
theories/MalVerModel.v
theories/MalVerSpec.v
theories/MalVerProofs.v
theories/MalVerThms.v
theories/MalVerChal.v
theories/MalVerFp.v
theories/PropMalVer.v
theories/Mp2ThreadModel.v
theories/Mp2ThreadSpec.v
theories/Mp2ThreadItems.v
theories/Mp2ThreadThms.v
theories/PropMp2Thread.v
theories/FWireModel.v
theories/FWireProofs.v
theories/FWireFollow.v
theories/FWirePrv.v
theories/FWireThms.v
theories/FWireAny.v
theories/PropFWire.v
theories/EdaCutSpec.v
theories/EdaCutAlg.v
theories/EdaCutThms.v
theories/PropEdaCut.v
theories/EdaHideSpec.v
theories/EdaHideThms.v
theories/PropEdaHide.v
theories/EdaSessSpec.v
theories/EdaSessThms.v
theories/PropEdaSess.v
theories/VoleHideSpec.v
theories/VoleHideThms.v
theories/VoleHideThms2.v
theories/PropVoleHide.v
theories/AppModel.v
theories/AppSpec.v
theories/AppProofs.v
theories/AppThms.v
theories/AppThms2.v
theories/AppThms3.v
theories/AppThms4.v
theories/AppThms5.v
theories/AppThms6.v
theories/PropApp.v
theories/BSessModel.v
theories/BSessSpec.v
theories/BSessProofs.v
theories/BSessThms.v
theories/BSessGame.v
theories/BSessHideSpec.v
theories/BSessHide.v
theories/BSessApps.v
theories/PropBSess.v
theories/TightSpec.v
theories/TightProofs.v
theories/PropTight.v
theories/RamProgModel.v
theories/RamProgSpec.v
theories/RamProgProofs.v
theories/PropRamProg.v
theories/WideCountSpec.v
theories/WideCount.v
theories/PropWideCount.v
theories/RamGateModel.v
theories/RamGateSpec.v
theories/RamGateProofs.v
theories/RamGateThms.v
theories/RamGateSess.v
theories/PropRamGate.v
theories/RoGateModel.v
theories/RoGateSpec.v
theories/RoGateProofs.v
theories/RoGateSess.v
theories/PropRoGate.v
theories/BTestModel.v
theories/BTestSpec.v
theories/BTestProofs.v
theories/PropBTest.v
theories/AbConvModel.v
theories/AbConvSpec.v
theories/AbConvProofs.v
theories/PropAbConv.v
theories/WideGateModel.v
theories/WideGateSpec.v
theories/WideGateProofs.v
theories/WideGateThms.v
theories/WideGateSess.v
theories/PropWideGate.v
theories/BWireModel.v
theories/BWireSpec.v
theories/BWireProofs.v
theories/BWireThms.v
theories/BWireAny.v
theories/PropBWire.v
theories/BWireHideSpec.v
theories/BWireHide.v
theories/AWireHideSpec.v
theories/AWireHide.v
theories/AWireLeak.v
theories/PropAWireHide.v
theories/VoleRawSeed.v
theories/XWireModel.v
theories/XWireArith.v
theories/XWireBool.v
theories/XWireThms.v
theories/PropXWire.v
theories/XWireSpec.v
theories/XWireAny.v
theories/PropXWireAny.v
theories/XWireKey.v
theories/PropXWireKey.v
theories/XWireHideSpec.v
theories/XWireHide.v
theories/XWireHide2.v
theories/XWireHide3.v
theories/PropXWireHide.v
theories/XWireLeak.v
theories/PropXWireLeak.v
theories/CommSpec.v
theories/CommProofs.v
theories/CommThms.v
theories/PropComm.v
theories/CommVerSpec.v
theories/CommVer.v
theories/PropCommVer.v
