-Q theories Verif
theories/PolyR.v
theories/SignVar.v
theories/RootModel.v
theories/RootSpec.v
theories/DescartesProofs.v
theories/VcaProofs.v
theories/VcaTerm.v
theories/IsoProofs.v
theories/IsoAll.v
theories/IsoWithin.v
theories/CountAll.v
theories/CountWithin.v
theories/BoundProofs.v
theories/BoundFactor.v
theories/RootFacts.v
theories/PropertiesRoots.v
theories/ExtraModel.v
theories/ExtraProofs.v
theories/SquarefreeProofs.v
theories/PremProofs.v
theories/PropertiesExtra.v
theories/Dyadic.v
theories/DyadicProofs.v
theories/ArbModel.v
theories/ArbSpec.v
theories/ArbProofs.v
theories/FieldProofs.v
theories/RefineProofs.v
theories/DyBall.v
theories/DyBallProofs.v
theories/ArbRefute.v
theories/LinearCheck.v
theories/PropertiesArb.v
theories/EmbModel.v
theories/EmbProofs.v
theories/EmbWithin.v
theories/EmbWrong.v
theories/PropertiesEmb.v
theories/ElemModel.v
theories/ElemSpec.v
theories/ElemProofs.v
theories/ElemLoops.v
theories/ElemHist.v
theories/NfArith.v
theories/NfArithProofs.v
theories/ElemMore.v
theories/ElemExact.v
theories/ElemRefute.v
theories/ElemEdge.v
theories/ElemWrong.v
theories/PropertiesElem.v
theories/StrModel.v
theories/StrSpec.v
theories/StrProofs.v
theories/StrMore.v
theories/StrRefute.v
theories/StrRead.v
theories/PropertiesRead.v
theories/PropertiesStr.v
theories/GetdModel.v
theories/GetdSpec.v
theories/GetdProofs.v
theories/GetdMore.v
theories/GetdRefute.v
theories/PropertiesGetd.v
theories/CxxModel.v
theories/CxxSpec.v
theories/CxxProofs.v
theories/CxxSound.v
theories/CxxNum.v
theories/CxxRefute.v
theories/PropertiesCxx.v
theories/CxxMake.v
theories/CxxOpModel.v
theories/CxxOpSpec.v
theories/CxxOp.v
theories/CxxOpRefute.v
theories/PropertiesCxxOp.v
theories/PropertiesCxxMake.v
theories/LifeModel.v
theories/LifeSpec.v
theories/LifeProofs.v
theories/LifeRefute.v
theories/LifeFields.v
theories/LifeShare.v
theories/PropertiesLife.v
theories/ThreadModel.v
theories/ThreadSpec.v
theories/ThreadProofs.v
theories/ThreadRefute.v
theories/PropertiesThread.v
theories/MakeModel.v
theories/MakeSpec.v
theories/MakeText.v
theories/MakeProofs.v
theories/MakeRefute.v
theories/ArchiveProofs.v
theories/ArchiveInto.v
theories/ArchiveRefute.v
theories/PropertiesMake.v
theories/FmpqModel.v
theories/FmpqProofs.v
theories/BufModel.v
theories/BufSpec.v
theories/BufProofs.v
theories/SturmSpec.v
theories/Sturm.v
theories/SturmProofs.v
theories/SturmExact.v
theories/SturmExample.v
theories/CountVca.v
theories/PropertiesMore.v
theories/EndsSpec.v
theories/EndsProofs.v
theories/EndsGetd.v
theories/RateSpec.v
theories/DyRate.v
theories/RefineEnds.v
theories/EndsRefute.v
theories/EndsField.v
theories/EndsMain.v
theories/DefSpec.v
theories/DefProofs.v
theories/DefMain.v
theories/DefRefute.v
theories/PropertiesDef.v
theories/ToolsModel.v
theories/ToolsSpec.v
theories/ToolsIrred.v
theories/ToolsRoot.v
theories/ToolsProofs.v
theories/ToolsRand.v
theories/PropertiesTools.v
theories/InitDefined.v
theories/PropertiesEnds.v
theories/CreateSpec.v
theories/CreateProofs.v
theories/CreateMain.v
theories/CreateMake.v
theories/CreateEx.v
theories/CallSpec.v
theories/CallProofs.v
theories/EmbStuck.v
theories/CondTight.v
theories/CondLoss.v
theories/PropertiesCond.v
theories/FlSpec.v
theories/FlProofs.v
theories/FlRefute.v
theories/FlEmb.v
theories/FlRoot.v
theories/FlWrong.v
theories/FlTiny.v
theories/FlMake.v
theories/FlCxx.v
theories/PropertiesFl.v
theories/SetAcc.v
theories/SetExplicit.v
theories/PropertiesSet.v
theories/PropertiesCreate.v
theories/CopyProofs.v
theories/PropertiesCopy.v
theories/PyModel.v
theories/PySpec.v
theories/PyProofs.v
theories/PyFloat.v
theories/PyField.v
theories/PyRefute.v
theories/PyElem.v
theories/PyInit.v
theories/PropertiesPy.v
theories/CallEndless.v
theories/PropertiesCall.v
theories/TempModel.v
theories/TempSpec.v
theories/Temp.v
theories/TempRefute.v
theories/PropertiesTemp.v
theories/ConcModel.v
theories/ConcSpec.v
theories/Conc.v
theories/ConcRight.v
theories/ConcRefute.v
theories/PropertiesConc.v
theories/SageModel.v
theories/SageSpec.v
theories/SageElem.v
theories/SageRefute.v
theories/PropertiesSage.v
theories/StreamLifeModel.v
theories/StreamLifeSpec.v
theories/StreamLife.v
theories/StreamLifeRefute.v
theories/PropertiesStreamLife.v
theories/PrintModel.v
theories/PrintSpec.v
theories/PrintProofs.v
theories/PrintTotal.v
theories/PrintRefute.v
theories/PrintTiny.v
theories/PropertiesPrint.v
theories/PyArgModel.v
theories/PyArgSpec.v
theories/PyArgProofs.v
theories/PropertiesPyArg.v
theories/SubfieldModel.v
theories/SubfieldSpec.v
theories/SubfieldProofs.v
theories/PropertiesSubfield.v
theories/HbModel.v
theories/HbSpec.v
theories/HbProofs.v
theories/HbRefute.v
theories/PropertiesHb.v
theories/EvalModel.v
theories/EvalSpec.v
theories/EvalProofs.v
theories/PropertiesEval.v
theories/FineSpec.v
theories/FineDy.v
theories/FlShare.v
theories/MarginEval.v
theories/Margin.v
theories/MarginMake.v
theories/MarginMain.v
theories/PropertiesMargin.v
theories/MarginUse.v
theories/MarginOver.v
theories/LinearUse.v
theories/LinearRefute.v
theories/PropertiesUse.v
theories/CxxUseSpec.v
theories/CxxUse.v
theories/CxxTotal.v
theories/PropertiesCxxUse.v
theories/AbsModel.v
theories/AbsSpec.v
theories/AbsProofs.v
theories/PropertiesAbs.v
theories/StepModel.v
theories/StepProofs.v
theories/PropertiesStep.v
theories/ArrModel.v
theories/ArrSpec.v
theories/ArrProofs.v
theories/PropertiesArr.v
theories/CallArrModel.v
theories/CallArrProofs.v
theories/PropertiesCallArr.v
theories/IdxModel.v
theories/IdxSpec.v
theories/IdxProofs.v
theories/IdxBound.v
theories/IdxUpper.v
theories/PropertiesIdx.v
theories/IsoIdxModel.v
theories/IsoIdxProofs.v
theories/PropertiesIsoIdx.v
theories/LoopModel.v
theories/LoopProofs.v
theories/PropertiesLoop.v
theories/PtrModel.v
theories/PtrProofs.v
theories/PropertiesPtr.v
theories/CfracModel.v
theories/CfracProofs.v
theories/PropertiesCfrac.v
theories/MemberModel.v
theories/MemberSpec.v
theories/MemberProofs.v
theories/PropertiesMember.v
theories/PrecWModel.v
theories/PrecWProofs.v
theories/PrecWRight.v
theories/PrecWAbort.v
theories/PropertiesPrecW.v
theories/GetdWModel.v
theories/GetdWProofs.v
theories/PropertiesGetdW.v
