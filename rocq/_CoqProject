-Q theories Verif
theories/FieldBase.v
theories/SortModel.v
theories/SortProofs.v
theories/PolyModel.v
theories/PolySpec.v
theories/PolyProofs.v
theories/RealField.v
theories/PolyReal.v
theories/PropPoly.v
theories/MiscModel.v
theories/MiscSpec.v
theories/MiscProofs.v
theories/PropMisc.v
theories/DetModel.v
theories/DetProofs.v
theories/PropDet.v
theories/AdjustModel.v
theories/AdjustProofs.v
theories/AmpModel.v
theories/AmpProofs.v
theories/CalmProofs.v
theories/CalmSpec.v
theories/ContJ.v
theories/ContProofs.v
theories/ContSpec.v
theories/CplxField.v
theories/CubeInt.v
theories/DefAlg.v
theories/DefAna.v
theories/DefCont.v
theories/DefHolo.v
theories/DefMain.v
theories/DefModel.v
theories/DefOptModel.v
theories/DefPoly.v
theories/DefRef.v
theories/DefRing.v
theories/DefSign.v
theories/DefSpec.v
theories/DefStokes.v
theories/DefThm.v
theories/DetTrans.v
theories/DistModel.v
theories/DistProofs.v
theories/DreadProofs.v
theories/ExpModel.v
theories/ExpSing.v
theories/ExpSpec.v
theories/ExpTaylor.v
theories/ExprArith.v
theories/ExprDerive.v
theories/ExprMixed.v
theories/ExprModel.v
theories/ExprMore.v
theories/ExprOrd.v
theories/ExprSimp.v
theories/ExprSmooth.v
theories/ExprSpec.v
theories/FileNameModel.v
theories/FnumContract.v
theories/FnumModel.v
theories/FnumProofs.v
theories/FnumSpec.v
theories/FnumTermModel.v
theories/FnumTermProofs.v
theories/FnumWick.v
theories/FormModel.v
theories/FormProofs.v
theories/FormSpec.v
theories/FpropMain.v
theories/FpropModel.v
theories/FpropMore.v
theories/FpropProofs.v
theories/FpropQuad.v
theories/FpropSpec.v
theories/FpropSquare.v
theories/FsetModel.v
theories/FsetProofs.v
theories/FsetScale.v
theories/FsetSearch.v
theories/FsetSpec.v
theories/FunChain.v
theories/FunModel.v
theories/FunProofs.v
theories/FunSpec.v
theories/GenVecData.v
theories/GenVecModel.v
theories/GeoFan.v
theories/GeoModel.v
theories/GeoProofs.v
theories/GeoProofs2.v
theories/GeoProofs3.v
theories/GeoProofs4.v
theories/GeoProofs5.v
theories/GeoProofs6.v
theories/GeoProofs7.v
theories/GeoReal.v
theories/GeoSpec.v
theories/GraphConn.v
theories/GraphF.v
theories/GraphMat.v
theories/GraphModel.v
theories/GraphPinch.v
theories/GraphPinchSpec.v
theories/GraphPinchU.v
theories/GraphProofs.v
theories/GraphSpec.v
theories/GraphU.v
theories/HashProofs.v
theories/HullProofs.v
theories/HullProofs2.v
theories/IterModel.v
theories/KernModel.v
theories/KernProofs.v
theories/KernSpec.v
theories/MatSortModel.v
theories/MatSortProofs.v
theories/MatSortProofs2.v
theories/MatSortProofs3.v
theories/MatSortProofs4.v
theories/MatSortSpec.v
theories/MulmodModel.v
theories/MulmodProofs.v
theories/NanModel.v
theories/NanProofs.v
theories/OrdModel.v
theories/OrdProofs.v
theories/OrdSector.v
theories/OrdSpec.v
theories/OrdSum.v
theories/OrdTop.v
theories/ParamExp.v
theories/ParamHom.v
theories/ParamMeasure.v
theories/ParamModel.v
theories/ParamProofs.v
theories/ParamReal.v
theories/ParamSpec.v
theories/ParamStep.v
theories/PrefModel.v
theories/PropAdjust.v
theories/PropAmp.v
theories/PropDef.v
theories/PropDist.v
theories/PropExp.v
theories/PropExpr.v
theories/PropFileName.v
theories/PropFlat.v
theories/PropFnum.v
theories/PropFnumTerm.v
theories/PropForm.v
theories/PropFprop.v
theories/PropFset.v
theories/PropFun.v
theories/PropFunMax.v
theories/PropGenVec.v
theories/PropGeo.v
theories/PropGraph.v
theories/PropHandler.v
theories/PropIter.v
theories/PropKern.v
theories/PropMatSort.v
theories/PropMulmod.v
theories/PropNan.v
theories/PropOrd.v
theories/PropParam.v
theories/PropParamGraph.v
theories/PropPinch.v
theories/PropPref.v
theories/PropQmc.v
theories/PropQmcLoop.v
theories/PropReg.v
theories/PropRpc.v
theories/PropSecSplit.v
theories/PropSector.v
theories/PropSectorJac.v
theories/PropSeries.v
theories/PropSing.v
theories/PropSplit.v
theories/PropStr.v
theories/PropSub.v
theories/PropSym.v
theories/PropText.v
theories/PropTextDist.v
theories/PropTrans.v
theories/PropUnc.v
theories/PropWeighted.v
theories/PropWrap.v
theories/PropXreg.v
theories/QmcCplx.v
theories/QmcLoop.v
theories/QmcLoopModel.v
theories/QmcModel.v
theories/QmcSpec.v
theories/QmcStat.v
theories/QmcWork.v
theories/QmcWorkProofs.v
theories/RegCurve.v
theories/RegDerive.v
theories/RegExpand.v
theories/RegFinal.v
theories/RegModel.v
theories/RegProofs.v
theories/RegRegion.v
theories/RegSpec.v
theories/RegTaylor.v
theories/RpcModel.v
theories/RpcProofs.v
theories/SecSplitModel.v
theories/SecSplitNonzero.v
theories/SecSplitProofs.v
theories/SectorInt.v
theories/SectorModel.v
theories/SectorPaths.v
theories/SectorProofs.v
theories/SectorProofs2.v
theories/SectorProofs3.v
theories/SectorReal.v
theories/SectorSpec.v
theories/SeriesModel.v
theories/SeriesProofs.v
theories/SeriesProofs2.v
theories/SeriesSpec.v
theories/SingSpec.v
theories/SplitModel.v
theories/SplitProofs.v
theories/SplitProofs2.v
theories/SplitProofs3.v
theories/SplitReal.v
theories/SplitSpec.v
theories/StrModel.v
theories/SubInt.v
theories/SubModel.v
theories/SubMulti.v
theories/SubProofs.v
theories/SubReg.v
theories/SubSpec.v
theories/SymInt.v
theories/SymModel.v
theories/SymProofs.v
theories/SymProofs2.v
theories/SymProofs3.v
theories/SymSpec.v
theories/TextConvModel.v
theories/TextDistConv.v
theories/TextDistModel.v
theories/TextDistRead.v
theories/TextDistSpec.v
theories/TextDistTree.v
theories/TextJsonModel.v
theories/TextJsonProofs.v
theories/TextMathProofs.v
theories/TextModel.v
theories/TextOutProofs.v
theories/TextOutSpec.v
theories/TextProofs.v
theories/TextRound.v
theories/TextSpec.v
theories/TransKorobov.v
theories/TransModel.v
theories/TransProofs.v
theories/TransSidi.v
theories/TransSpec.v
theories/UncModel.v
theories/UncSpec.v
theories/WrapInv.v
theories/WrapModel.v
theories/WrapProofs.v
theories/XregModel.v
theories/XregPrime.v
theories/XregProofs.v
theories/XregSpec.v
theories/XregTop.v
