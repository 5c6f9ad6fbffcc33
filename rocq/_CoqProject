-Q theories Verif
theories/Num.v
theories/NumFloat.v
theories/Vec.v
theories/Affine.v
theories/Box.v
theories/Line.v
theories/Seq.v
theories/SpecSeq.v
theories/Polygon.v
theories/BoxPoly.v
theories/Tangent.v
theories/Hull.v
theories/RBase.v
theories/SpecGeom.v
theories/VecFacts.v
theories/VecFacts2.v
theories/PropVec.v
theories/AffineCache.v
theories/SpecAffine.v
theories/AffineFacts.v
theories/PropAffine.v
theories/SeqFacts.v
theories/PropSeq.v
theories/OrdLaws.v
theories/SpecBox.v
theories/BoxFacts.v
theories/FloatFacts.v
theories/BoxFacts2.v
theories/PropBox.v
theories/LineOps.v
theories/SpecLine.v
theories/LineFacts.v
theories/LineFacts2.v
theories/LineFacts3.v
theories/FloatFacts2.v
theories/PropLine.v
theories/PolyOps.v
theories/PolyCache.v
theories/PolyCache2.v
theories/SpecPoly.v
theories/PolyCache3.v
theories/NumHom.v
theories/RComp.v
theories/PropPoly.v
theories/SpecCycle.v
theories/PolyEq.v
theories/PropPolyEq.v
theories/SpecMass.v
theories/CentroidFacts.v
theories/PropMass.v
theories/SpecWind.v
theories/WindFacts.v
theories/PolyCache4.v
theories/PropWind.v
theories/SpecTri.v
theories/TriFacts.v
theories/PropTri.v
theories/ConvexFacts.v
theories/ConvexFacts2.v
theories/SpecConvex.v
theories/ConvexFacts3.v
theories/ConvexFacts4.v
theories/PropConvex.v
theories/SpecSimple.v
theories/SortFacts.v
theories/SweepFacts.v
theories/SimpleFacts.v
theories/PropSimple.v
theories/SpecExtreme.v
theories/MonoFacts.v
theories/MonoFacts2.v
theories/MonoFacts3.v
theories/MonoFacts4.v
theories/PolyCache5.v
theories/PropPnp.v
theories/SpecHull.v
theories/HullFacts.v
theories/HullFacts2.v
theories/HullFacts3.v
theories/HullFacts4.v
theories/PropHull.v
theories/SpecTangent.v
theories/TangentFacts.v
theories/TangentFacts2.v
theories/TangentFacts3.v
theories/TangentFacts4.v
theories/PropTangent.v
theories/SpecRegular.v
theories/RegularFacts.v
theories/SettledFacts.v
theories/PropRegular.v
theories/StarFacts.v
theories/StarFacts2.v
theories/PropStar.v
theories/FloatFacts3.v
theories/FloatVec.v
theories/PropFloat.v
theories/EqFacts.v
theories/PropEq.v
theories/Dispatch.v
theories/PropDispatch.v
theories/Heap.v
theories/HeapFacts.v
theories/PropHeap.v
theories/RelPoly.v
theories/FloatExact.v
theories/SpecExact.v
theories/PropExact.v
theories/PropArr.v
theories/Settings.v
theories/PropSettings.v
theories/FloatErr.v
theories/FloatErr2.v
theories/FloatErr3.v
theories/FloatErr4.v
theories/SpecErr.v
theories/FloatErr5.v
theories/FloatErr6.v
theories/FloatErr7.v
theories/PropErr.v
theories/SeqItems.v
theories/SpecSlice.v
theories/SliceFacts.v
theories/PropItems.v
theories/Repr.v
theories/SpecExpr.v
theories/ReprFacts.v
theories/FloatRepr.v
theories/PropRepr.v
theories/Cost.v
theories/CostFacts.v
theories/CostFacts2.v
theories/CostFacts3.v
theories/CostFacts4.v
theories/CostFacts5.v
theories/CostFacts6.v
theories/PropCost.v
theories/RelClear.v
theories/SpecClear.v
theories/ClearFacts.v
theories/ClearFacts2.v
theories/PropClear.v
theories/RelHull.v
theories/SpecHullGrid.v
theories/HullGrid.v
theories/PropHullGrid.v
theories/StarFacts3.v
theories/PropStar2.v
theories/TieFacts.v
theories/SpecTie.v
theories/PropTie.v
theories/SpecBoxF.v
theories/BoxFloat.v
theories/PropBoxF.v
theories/TransTri.v
theories/TransFacts.v
theories/PropTrans.v
theories/SpecMotion.v
theories/LineTrans.v
theories/PropLineTrans.v
theories/PropOps.v
theories/IntExact.v
theories/PropTurn.v
theories/PropCons.v
theories/PropMassF.v
theories/PropSimple2.v
theories/Compare.v
theories/PropCompare.v
theories/PropKnown.v
theories/HullFacts5.v
theories/PropHullWide.v
theories/HullFacts6.v
theories/SpecSplit.v
theories/MonoFacts5.v
theories/PropSplit.v
theories/PropHullPoly.v
theories/PropRegular2.v
theories/PropHullPolyF.v
theories/PropExact2.v
theories/SpecRegion.v
theories/RegionFacts.v
theories/PropRegion.v
theories/PropRegionF.v
theories/RelEq.v
theories/PropSame.v
theories/PropSameF.v
theories/PropRect.v
theories/PropHullTrans.v
theories/PropMove.v
theories/SpecGrid.v
theories/GridOps.v
theories/PropGrid.v
theories/PropHullTransF.v
theories/PropHullLaws.v
theories/PropHullLawsF.v
theories/SideFacts.v
theories/SpecSides.v
theories/PropSides.v
theories/SpecFrame.v
theories/FrameF.v
theories/PropFrame.v
theories/PropDist.v
theories/SpecRot.v
theories/IdealLib.v
theories/RotFacts.v
theories/PropRot.v
theories/RingF.v
theories/SpecRing.v
theories/RingConvex.v
theories/PropRing.v
theories/SpecInv.v
theories/InvF.v
theories/InvF2.v
theories/PropInv.v
theories/ScaleF.v
theories/SpecScale.v
theories/PropScale.v
theories/SpecAngle.v
theories/PropAngle.v
theories/ProjF.v
theories/PropProj.v
theories/PropLineMulF.v
theories/PropCentroid.v
theories/PropRegularF.v
theories/PropTriF.v
theories/PropAlmostF.v
theories/PropParF.v
