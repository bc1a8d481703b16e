-Q theories Verif
theories/Base.v
theories/BaseFacts.v
theories/Scalar.v
theories/KnotModel.v
theories/RSum.v
theories/BSplineSpec.v
theories/BSpline.v
theories/BSplineInsert.v
theories/KnotSpec.v
theories/KnotFacts.v
theories/KnotProofs.v
theories/VecFacts.v
theories/MiscModel.v
theories/CurveModel.v
theories/CurveKnotModel.v
theories/CurveSpec.v
theories/CurveProofs.v
theories/CurveGeom.v
theories/CurveGeom2.v
theories/KnotMisc.v
theories/CurveShapes.v
theories/Boehm.v
theories/Refine.v
theories/SplitModel.v
theories/SplitProofs.v
theories/Decompose.v
theories/AddKnot.v
theories/Continuity.v
theories/Demo.v
theories/PropsCurve.v
theories/BBoxModel.v
theories/BBoxProofs.v
theories/MiscProofs.v
theories/PolygonProofs.v
theories/PropsGeom.v
theories/BSplineDeriv.v
theories/DerivKnot.v
theories/CurveDeriv.v
theories/PropsDeriv.v
theories/ElevateModel.v
theories/ElevateProofs.v
theories/RemoveProofs.v
theories/PropsKnots.v
theories/MergeModel.v
theories/MergeProofs.v
theories/PropsMerge.v
theories/SurfaceModel.v
theories/SurfaceSpec.v
theories/SurfaceProofs.v
theories/SurfaceSample.v
theories/SurfaceDeriv.v
theories/SurfaceRational.v
theories/SurfaceTess.v
theories/SurfaceRefine.v
theories/SurfaceIso.v
theories/SurfaceSplit.v
theories/SurfaceBoxModel.v
theories/SurfaceShapes.v
theories/SurfaceRefuted.v
theories/PropsSurface.v
theories/CompoundModel.v
theories/CompoundProofs.v
theories/CompoundRefuted.v
theories/PropsCompound.v
theories/ClipModel.v
theories/ClipSpec.v
theories/ClipProofs.v
theories/ClipBuild.v
theories/RegionModel.v
theories/RegionProofs.v
theories/ClipMain.v
theories/ClipReal.v
theories/ClipRefuted.v
theories/PropsClip.v
theories/TraversalModel.v
theories/TraversalProofs.v
theories/TraversalCurve.v
theories/TraversalSurface.v
theories/PropsTraversal.v
theories/LengthModel.v
theories/LengthProofs.v
theories/LengthMain.v
theories/LengthLine.v
theories/LengthRefuted.v
theories/PropsLength.v
theories/TessCurveModel.v
theories/TessCurveProofs.v
theories/TessCurveMore.v
theories/TessCurveRefuted.v
theories/PropsTessCurve.v
theories/ClosestModel.v
theories/NewtonProofs.v
theories/NewtonMain.v
theories/NewtonLine.v
theories/NewtonSurf.v
theories/BfgsModel.v
theories/BfgsProofs.v
theories/BfgsReal.v
theories/NewtonRefuted.v
theories/IntersectModel.v
theories/IntersectProofs.v
theories/IntersectMain.v
theories/IntersectRefuted.v
theories/PropsNewton.v
theories/PropsIntersect.v
theories/InterpModel.v
theories/InterpProofs.v
theories/InterpPeriodic.v
theories/InterpRefuted.v
theories/KnotUniform.v
theories/PropsInterp.v
theories/ArcModel.v
theories/ArcProofs.v
theories/ArcMain.v
theories/ArcCircle.v
theories/ArcTheorems.v
theories/ArcRefuted.v
theories/PropsArc.v
theories/SerdeModel.v
theories/SerdeProofs.v
theories/SerdeMain.v
theories/PropsSerde.v
theories/AdaptModel.v
theories/AdaptProofs.v
theories/AdaptForest.v
theories/AdaptReal.v
theories/AdaptEdges.v
theories/AdaptPoly.v
theories/AdaptMesh.v
theories/AdaptTiling.v
theories/AdaptSurface.v
theories/AdaptTotal.v
theories/AdaptMain.v
theories/AdaptRefuted.v
theories/PropsAdapt.v
theories/CurveMore.v
theories/CompoundMore.v
theories/PropsMore.v
theories/RevolveModel.v
theories/RevolveProofs.v
theories/RevolveColumn.v
theories/RevolveMain.v
theories/RevolveTheorems.v
theories/RevolveSphere.v
theories/RevolveRefuted.v
theories/PropsRevolve.v
theories/LoftModel.v
theories/LoftProofs.v
theories/LoftRefuted.v
theories/LoftMissed.v
theories/LoftCases.v
theories/PropsLoft.v
theories/FrameModel.v
theories/FrameProofs.v
theories/FrameTheorems.v
theories/FrameSweep.v
theories/FrameCases.v
theories/FrameRefuted.v
theories/PropsFrame.v
theories/ContainsModel.v
theories/CrossingSpec.v
theories/CrossingProofs.v
theories/ContainsProofs.v
theories/ContainsMain.v
theories/ContainsTheorems.v
theories/ContainsCases.v
theories/ContainsRefuted.v
theories/PropsContains.v
theories/PolygonConnected.v
theories/TrimModel.v
theories/TrimSpec.v
theories/TrimProofs.v
theories/TrimTheorems.v
theories/TrimUV.v
theories/TrimFull.v
theories/TrimOps.v
theories/TrimDemo.v
theories/TrimCases.v
theories/TrimRefuted.v
theories/PropsTrim.v
theories/Bernstein.v
theories/ElevateBezier.v
theories/BezierTheorems.v
theories/PropsBezier.v
theories/BfgsStep.v
theories/GradientProofs.v
theories/MeasureProofs.v
theories/PropsOptim.v
theories/FloatRefuted.v
theories/SmoothProofs.v
theories/EndTangent.v
theories/SurfCorners.v
theories/SurfContinuity.v
theories/PropsSmooth.v
theories/Rounding.v
theories/RoundingInstance.v
theories/RoundedEval.v
theories/RoundedSurface.v
theories/RoundedDouble.v
theories/PropsRounding.v
theories/RegionUnion.v
theories/LengthMotion.v
theories/LengthMotion2.v
theories/PropsMotion.v
theories/VariationDim.v
theories/PropsVariation.v
theories/AdaptConstr.v
theories/AdaptConstr2.v
theories/AdaptConstr3.v
theories/PropsConstr.v
theories/TrimRay.v
theories/TrimRayCases.v
theories/AdaptNormals.v
theories/AdaptNormals2.v
theories/AdaptNormalsRefuted.v
theories/PropsNormals.v
theories/Unique.v
theories/Unique2.v
theories/UniqueRefuted.v
theories/PropsUnique.v
theories/SurfUnique.v
theories/SurfUnique2.v
theories/Cuts.v
theories/SurfCuts.v
theories/PropsSurfUnique.v
theories/RoundedRefine.v
theories/RoundedCut.v
theories/RoundedDouble2.v
theories/PropsRoundedCut.v
theories/CompoundCycle.v
theories/PropsCycle.v
theories/TrimFine.v
theories/Boolean.v
theories/PropsBoolean.v
theories/IntersectSurf.v
theories/PropsIntersect2.v
theories/SchoenbergWhitney.v
theories/InterpUnique.v
theories/InterpSingular.v
theories/PropsInterp2.v
theories/LoftSucceeds.v
theories/SweepSucceeds.v
theories/PropsLoft2.v
theories/ElevateSpans.v
theories/ElevateFour.v
theories/PropsElevate.v
theories/CompoundArc.v
theories/BooleanCompound.v
theories/PropsBoolean2.v
theories/ClampProofs.v
theories/AdaptFlat.v
theories/PropsClamp.v
theories/SurfClosest.v
theories/PropsSurfClosest.v
theories/DegenerateRefuted.v
theories/PropsDegenerate.v
theories/CurveLipschitz.v
theories/PropsLipschitz.v
theories/SurfLipschitz.v
theories/PropsSurfLipschitz.v
theories/ClosestNear.v
theories/PropsClosestNear.v
theories/SurfClosestNear.v
theories/PropsSurfClosestNear.v
theories/TrimOrder.v
theories/PropsTrimOrder.v
theories/MeshNear.v
theories/AdaptNear.v
theories/CurveChord.v
theories/PropsNear.v
theories/Degenerate.v
theories/PropsDegenerate2.v
theories/BooleanModel.v
theories/BooleanSwap.v
theories/PropsBoolean3.v
theories/Accessors.v
theories/BooleanMethods.v
theories/BfgsSwap.v
theories/IntersectSwap.v
theories/IntersectOrderRefuted.v
theories/PropsOrder.v
theories/AccessorModel.v
theories/SurfAccessors.v
theories/PropsSurfAccess.v
theories/SurfFlip.v
theories/CastModel.v
theories/Cast.v
theories/CastSingle.v
theories/PropsCast.v
theories/CastEnds.v
