-Q theories Verif
theories/Py.v
theories/ModelPart.v
theories/ModelQcalc.v
theories/ModelPoly.v
theories/ModelStr.v
theories/ModelExpr.v
theories/ModelParse.v
theories/ModelArith.v
theories/ModelDraw.v
theories/SpecArith.v
theories/ApiArith.v
theories/ApiDraw.v
theories/DrawLabel.v
theories/PropsArith.v
theories/ModelGr.v
theories/ModelList.v
theories/ModelMisc.v
theories/ModelCache.v
theories/Spec.v
theories/SpecMisc.v
theories/SpecPieri.v
theories/OrderFacts.v
theories/PolyFacts.v
theories/SuppFacts.v
theories/OpTheory.v
theories/Conv.v
theories/Enum.v
theories/PyFacts.v
theories/ExprFacts.v
theories/ParseFacts.v
theories/CacheFacts.v
theories/FillFacts.v
theories/PartFacts.v
theories/BetwFacts.v
theories/ConjFacts.v
theories/PairFacts.v
theories/IndexC.v
theories/IndexB.v
theories/IndexD.v
theories/DualFacts.v
theories/Schub.v
theories/PieriSet.v
theories/PieriBKT.v
theories/CompsFacts.v
theories/CompsBound.v
theories/WSum.v
theories/PieriCoef.v
theories/PieriD.v
theories/QPieriD.v
theories/ApiExpr.v
theories/ApiPart.v
theories/RimFacts.v
theories/TabFacts.v
theories/GrInv.v
theories/PieriA.v
theories/QPieriA.v
theories/CylA.v
theories/Sys.v
theories/Sys2.v
theories/SysApi.v
theories/RingA.v
theories/FactsA.v
theories/ConvA.v
theories/ApiA.v
theories/ApiConvA.v
theories/ApiPair.v
theories/ApiIndex.v
theories/ApiGr.v
theories/Check.v
theories/ApiMisc.v
theories/ApiPieri.v
theories/WArrow.v
theories/Word.v
theories/Transfer.v
theories/WordArrow.v
theories/WordPieri.v
theories/Extract.v
theories/CoefSys.v
theories/CommC.v
theories/RecBCD.v
theories/RingC.v
theories/CommB.v
theories/RingB.v
theories/SpecRing.v
theories/SysRing.v
theories/RingData.v
theories/ApiRing.v
theories/PropsA.v
theories/PropsClass.v
theories/PropsConv.v
theories/PropsIndex.v
theories/ReadAll.v
theories/PropsExpr.v
theories/PropsGr.v
theories/PropsMisc.v
theories/PropsPieri.v
theories/ApiPieriQ.v
theories/QPieriD1.v
theories/ApiPieriP.v
theories/SetFacts.v
theories/TwoBad.v
theories/PropsPieriQ.v
theories/PropsRing.v
theories/TransD.v
theories/WordD.v
theories/CoefD.v
theories/CommD.v
theories/CommD2.v
theories/RingD.v
theories/RingD0.v
theories/ApiRingD.v
theories/SwapRing.v
theories/PowTwo.v
theories/CountFacts.v
theories/SpecDet.v
theories/DetFacts.v
theories/GiamDet.v
theories/PresA.v
theories/DualSys.v
theories/DualWord.v
theories/DualWordD.v
theories/DualA.v
theories/ApiDual.v
theories/PropsDual.v
theories/PropsRingD.v
theories/PropsSwap.v
theories/PropsGiam.v
theories/SysMap.v
theories/LRCore.v
theories/LRSum.v
theories/LRMult.v
theories/LRQuant.v
theories/LRTab.v
theories/RimQ.v
theories/ApiLR.v
theories/ApiRim.v
theories/PropsLR.v
theories/VertA.v
theories/ConjRing.v
theories/ApiVert.v
theories/PropsRim.v
theories/PropsVert.v
theories/ModelText.v
theories/SpecText.v
theories/TextFacts.v
theories/PropsText.v
theories/TwoRows.v
theories/SpecRel.v
theories/RelBC.v
theories/PropsRel.v
theories/TopClass.v
theories/PropsTop.v
theories/SpecTwo.v
theories/TwoRows2.v
theories/GiamTwo.v
theories/PropsTwo.v
theories/TwoRowsD.v
theories/SpecTwoD.v
theories/GiamTwoD.v
theories/PropsTwoD.v
theories/SpecRelD.v
theories/RelD.v
theories/PropsRelD.v
theories/ApiTable.v
theories/PropsTable.v
theories/SpecProd.v
theories/ModelModule.v
theories/ApiModule.v
theories/PropsModule.v
theories/Seidel.v
theories/PropsSeidel.v
theories/Kostka.v
theories/ApiKostka.v
theories/PropsKostka.v
theories/Reach.v
theories/SpecReach.v
theories/ApiReach.v
theories/ReachQ.v
theories/ReachMax.v
theories/PropsReach.v
theories/TwoComm.v
theories/SpecAct.v
theories/ActLaws.v
theories/GiamSame.v
theories/TwoRing.v
theories/ApiAct.v
theories/PropsAct.v
theories/ModelThreads.v
theories/ThreadFacts.v
theories/ApiThreads.v
theories/PropsThreads.v
theories/SpecProj.v
theories/ProjFacts.v
theories/QuadFacts.v
theories/ApiProj.v
theories/ApiQuad.v
theories/PropsProj.v
theories/ModelSage.v
theories/ApiSage.v
theories/PropsSage.v
theories/SpecFree.v
theories/MultFree.v
theories/PropsFree.v
theories/SpecPos.v
theories/PosFacts.v
theories/ApiPos.v
theories/PropsPos.v
theories/SpecWeight.v
theories/WtFacts.v
theories/RelAct.v
theories/ApiWeight.v
theories/PropsWeight.v
theories/TwoDual.v
theories/SpecPair.v
theories/TwoPair.v
theories/ApiTwo.v
theories/ApiTwoZ.v
theories/PropsPair.v
theories/SpecIter.v
theories/IterFacts.v
theories/PropsIter.v
theories/SpecQG.v
theories/QGiamC.v
theories/ApiQG.v
theories/PropsQG.v
theories/SpecMinQ.v
theories/MinQ.v
theories/ApiMinQ.v
theories/PropsMinQ.v
theories/SpecMaxQ.v
theories/QOcc.v
theories/LoopQ.v
theories/ApiMaxQ.v
theories/PropsMaxQ.v
theories/StrangePair.v
theories/Strange.v
theories/StrangeA.v
theories/ApiStrange.v
theories/PropsStrange.v
theories/SpecLines.v
theories/Lines.v
theories/PropsLines.v
theories/SpecCyl.v
theories/QKostka.v
theories/PropsCyl.v
theories/SpecOutside.v
theories/Outside.v
theories/PropsOutside.v
theories/SpecDegree.v
theories/PartialFrac.v
theories/DegreeAlg.v
theories/Degree.v
theories/DegreeLow.v
theories/DegreeA.v
theories/DegreeMax.v
theories/PropsDegree.v
theories/SeidelSys.v
theories/SeidelC.v
theories/PropsSeidelC.v
theories/SpecSeidel.v
theories/SeidelB.v
theories/SeidelApi.v
theories/PropsSeidelB.v
theories/SeidelD.v
theories/SeidelDApi.v
theories/PropsSeidelD.v
theories/SeidelP.v
theories/PropsSeidelP.v
theories/SpecDepth.v
theories/Depth.v
theories/PropsDepth.v
theories/PfaffWords.v
theories/SpecPfaff.v
theories/PfaffWords2.v
theories/Pfaff.v
theories/Pfaff2.v
theories/Pfaff3.v
theories/PropsPfaff.v
theories/PfaffFull.v
theories/PropsPfaffian.v
theories/SpecPres.v
theories/PresIdeal.v
theories/PresIdeal2.v
theories/PropsPres.v
theories/SpecPresMax.v
theories/PresMax.v
theories/PresMax2.v
theories/PropsPresMax.v
theories/LGQuant.v
theories/PropsLGQuant.v
theories/IGQuant.v
theories/PropsIGQuant.v
theories/Restrict.v
theories/StabC.v
theories/StabD.v
theories/StabA.v
theories/PropsStabC.v
theories/SpecRows.v
theories/GiamStab.v
theories/StabGiam.v
theories/PropsStabG.v
theories/RestrictPoly.v
theories/StabHom.v
theories/PropsHom.v
theories/SpecPush.v
theories/Push.v
theories/PropsPush.v
