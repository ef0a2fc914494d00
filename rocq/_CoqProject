-Q theories Verif

theories/Base.v
theories/IdSetModel.v
theories/IdSetSpec.v
theories/IdSetProofs.v
theories/KeySetModel.v
theories/KeySetSpec.v
theories/KeySetProofs.v
theories/BitRev.v
theories/BitRevProofs.v
theories/Negacyclic.v
theories/FloatModel.v
theories/FloatProofs.v
theories/NumTheory.v
theories/Ntt.v
theories/Word.v
theories/BasisExt.v
theories/BasisExtProofs.v
theories/DecompProofs.v
theories/BasisSpec.v
theories/PropsBasis.v
theories/Rows.v
theories/RlweModel.v
theories/SchemeSpec.v
theories/ExtProd.v
theories/ExtProps.v
theories/KeyGenModel.v
theories/Galois.v
theories/KeyGenProofs.v
theories/Instance.v
theories/PropsScheme.v
theories/CtModel.v
theories/CtSpec.v
theories/CtProofs.v
theories/EncDecProofs.v
theories/HeapModel.v
theories/HeapProofs.v
theories/PropsEnc.v
theories/KeySwitchModel.v
theories/Digits.v
theories/KsLoops.v
theories/RotProofs.v
theories/ConjProofs.v
theories/MulProofs.v
theories/PropsKeySwitch.v
theories/IndexModel.v
theories/PropsIndex.v
theories/LeakSpec.v
theories/PropsLeak.v
theories/EncMsgModel.v
theories/PropsReserved.v
theories/Slots.v
theories/PropsSlots.v
theories/PropsContainers.v
theories/CkksFloat.v
theories/CkksModel.v
theories/CkksFloatProofs.v
theories/CkksProofs.v
theories/CkksRescale.v
theories/PropsCkks.v
theories/PropsRescale.v
theories/PropsConst.v
theories/PropsConstCx.v
theories/PropsMulRelin.v
theories/PropsCkksEx.v
theories/PropsRotate.v
theories/BfvModel.v
theories/PropsBfv.v
theories/HelperModel.v
theories/PropsHelpers.v
theories/DecryptorModel.v
theories/PropsDecryptor.v
theories/CnnModel.v
theories/PropsCnn.v
theories/KsPool.v
theories/KsPoolProofs.v
theories/EvalPool.v
theories/EvalPoolProofs.v
theories/PropsPool.v
theories/ShareModel.v
theories/PropsShare.v
theories/ShareEx.v
theories/BfvMulModel.v
theories/BfvConv.v
theories/PropsBfvConv.v
theories/BfvGadget.v
theories/BfvDig.v
theories/BfvKey.v
theories/BfvCross.v
theories/BfvMulProofs.v
theories/PropsBfvMul.v
theories/PropsBfvMulEx.v
theories/BfvCircuit.v
theories/EncFresh.v
theories/PropsBfvCircuit.v
theories/PropsBfvCircuitEx.v
theories/CkksSlots.v
theories/SlotNorm.v
theories/SlotEncode.v
theories/CkksCircuit.v
theories/PropsCkksCircuit.v
theories/PropsCkksScale.v
theories/PropsCkksCircuitEx.v
theories/CkksBudget.v
theories/BfvPool.v
theories/BfvPoolProofs.v
theories/PropsBfvPool.v
theories/Pock.v
theories/Shipped.v
theories/PropsShipped.v
theories/PropsCkksShipped.v
theories/Roots.v
theories/ParamsModel.v
theories/PropsParams.v
theories/GenPool.v
theories/GenProofs.v
theories/EncPoolProofs.v
theories/PropsGen.v
theories/PropsCt.v
theories/BfvShare.v
theories/PropsBfvShare.v
theories/HeapEval.v
theories/HeapEvalProofs.v
theories/HeapWorld.v
theories/PropsHeap.v
theories/HeapBfv.v
theories/HeapBfvProofs.v
theories/PropsHeapBfv.v
theories/CkksHoist.v
theories/PropsCkksHoist.v
theories/PropsCkksHoistEx.v
theories/CkksTight.v
theories/PropsCkksTight.v
theories/CnnNet.v
theories/CnnProgProofs.v
theories/CnnSlots.v
theories/CnnEval.v
theories/CkksCalc.v
theories/CnnSetup.v
theories/PropsCnnNet.v
theories/PropsCnnShipped.v
theories/PropsModDown.v
theories/CkksFull.v
theories/PropsCkksFull.v
theories/PropsCkksFullEx.v
theories/CkksFullRule.v
theories/PropsCkksFullRule.v
theories/PropsCkksFullRuleEx.v
theories/BfvMsg.v
theories/BfvMsgSlots.v
theories/PropsBfvMsg.v
theories/PropsBfvMsgShipped.v
theories/PropsBfvMsgEx.v
theories/ExtShare.v
theories/ExtShareProofs.v
theories/PropsExtShare.v
theories/KeyCopy.v
theories/PropsKeyCopy.v
theories/StdDev.v
theories/StdDevProofs.v
theories/PropsStdDev.v
theories/PropsCkksProd.v
theories/ObjShare.v
theories/ObjShareProofs.v
theories/PropsObjShare.v
theories/EvShare.v
theories/EvShareProofs.v
theories/PropsEvShare.v
theories/EvShareAll.v
theories/EvShareAllProofs.v
theories/EvShareAllSafe.v
theories/PropsEvShareAll.v
theories/PropsBfvExt.v
theories/PropsSum.v
theories/PropsUses.v
theories/Determ.v
theories/DetermOps.v
theories/DetermMul.v
theories/PropsDeterm.v
theories/DetermBfv.v
theories/PropsDetermBfv.v
theories/DetermLin.v
theories/PropsDetermLin.v
theories/PropsDetermProg.v
theories/PropsDetermBfvProg.v
theories/PropsDetermDec.v
theories/PropsDetermEnd.v
theories/PropsPartial.v
