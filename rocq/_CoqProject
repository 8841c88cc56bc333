-Q theories Verif
theories/Base.v
theories/Num.v
theories/NumR.v
theories/NumF.v
theories/M_BoxIterator.v
theories/M_SideIterator.v
theories/S_Box.v
theories/L_Box.v
theories/L_Side.v
theories/P_Iterators.v
theories/M_Octree.v
theories/L_Octree.v
theories/P_Octree.v
theories/L_OctreeF.v
theories/P_OctreeF.v
theories/M_CmdLine.v
theories/L_CmdLine.v
theories/P_CmdLine.v
theories/M_LinearSolve.v
theories/S_LinAlg.v
theories/L_LinearSolve.v
theories/L_GelsR.v
theories/P_LinearSolve.v
theories/L_Cramer.v
theories/M_FindPoint.v
theories/S_Grid.v
theories/L_Interp.v
theories/L_FindPoint.v
theories/L_FindPointR.v
theories/L_FindPointA.v
theories/L_FindPointB.v
theories/P_FindPoint.v
theories/M_NodeInterp.v
theories/S_Interp.v
theories/L_NodeInterp.v
theories/L_NodeInterpR.v
theories/P_NodeInterp.v
theories/M_Triangulate.v
theories/S_Geometry.v
theories/L_Polygon.v
theories/L_Triangulate.v
theories/L_HullGen.v
theories/L_TriangulateF.v
theories/P_Triangulate.v
theories/M_Quad.v
theories/M_QuadIntersect.v
theories/S_Quad.v
theories/L_Hull.v
theories/L_Solve2.v
theories/L_Quad.v
theories/L_QuadIntersect.v
theories/L_Float.v
theories/L_QuadBoxF.v
theories/P_QuadIntersect.v
theories/M_QuadLine.v
theories/S_Sort.v
theories/L_QuadLine.v
theories/L_FloatOrder.v
theories/P_QuadLine.v
theories/S_Flow.v
theories/S_Polar.v
theories/L_Flow.v
theories/M_FlowInterp.v
theories/S_Array.v
theories/L_Box2.v
theories/L_FlowInterp.v
theories/L_Intervals.v
theories/L_FlowFind.v
theories/L_FlowGen.v
theories/L_FlowPar.v
theories/L_FlowTrap.v
theories/L_FlowTri.v
theories/L_Polar.v
theories/P_QuadLineFlows.v
theories/S_FlowTable.v
theories/L_FlowTable.v
theories/L_FlowTotal.v
theories/P_Flow.v
theories/L_FlowRect.v
theories/P_FlowLines.v
theories/P_FlowRing.v
theories/M_Examples.v
theories/P_Examples.v
theories/P_Polar.v
theories/P_PolarFlow.v
theories/M_ConserveInterp.v
theories/S_ConserveTable.v
theories/L_Conserve.v
theories/L_ConserveTable.v
theories/S_Area.v
theories/L_Area.v
theories/L_AreaPolygon.v
theories/S_Overlap.v
theories/S_ConserveGrid.v
theories/L_Corners.v
theories/L_TriFlat.v
theories/L_OverlapArea.v
theories/L_ConserveApply.v
theories/L_ConserveAgain.v
theories/L_ConserveArea.v
theories/S_Rectilinear.v
theories/S_Packing.v
theories/L_ConserveRect.v
theories/L_Packing.v
theories/L_ConserveIter.v
theories/P_Conserve.v
theories/M_FindOverlap.v
theories/L_FindPointG.v
theories/L_FindOverlap.v
theories/L_FindOverlapF.v
theories/P_FindOverlap.v
theories/P_FindOverlapF.v
theories/L_NodeInterpF.v
theories/L_Defined.v
theories/P_NodeInterpF.v
theories/P_Defined.v
theories/L_NodeExact.v
theories/P_NodeExact.v
theories/L_FloatOps.v
theories/L_FindPointF.v
theories/P_FindPointF.v
theories/M_Simplex.v
theories/P_Simplex.v
theories/M_Grids.v
theories/L_Grids.v
theories/TrigR.v
theories/P_Grids.v
theories/L_GridsF.v
theories/P_GridsF.v
theories/P_RotatedPole.v
theories/P_Tripolar.v
theories/M_Heap.v
theories/S_Heap.v
theories/P_Heap.v
theories/M_PyConserve.v
theories/P_PyConserve.v
theories/M_PyUtils.v
theories/L_PyUtils.v
theories/P_PyUtils.v
theories/P_PyFiles.v
theories/L_FlowTwin.v
theories/L_FlowF.v
theories/P_FlowF.v
theories/L_FlowPath.v
theories/L_FlowRev.v
theories/S_FlowIntegral.v
theories/L_FlowIntegral.v
theories/P_FlowLocal.v
theories/T_RepoTests.v
theories/L_DotF.v
theories/L_ApplyF.v
theories/P_ApplyF.v
theories/P_ConserveMax.v
theories/P_Packing.v
theories/L_AffineF.v
theories/L_CramerF.v
theories/P_AffineF.v
theories/L_NodeAffine.v
theories/P_NodeAffine.v
theories/L_ResidualF.v
theories/L_QuadF.v
theories/P_QuadF.v
theories/L_TriNear.v
theories/P_TriNear.v
theories/S_ConserveRel.v
theories/L_ConserveRel.v
theories/P_ConserveRel.v
theories/L_RectF.v
theories/P_RectF.v
theories/P_ExtremaF.v
theories/P_FlowCross.v
theories/S_FlowModerate.v
theories/L_FlowRectF.v
theories/L_FlowCellF.v
theories/L_FlowFindF.v
theories/L_FlowWeightF.v
theories/L_FlowSumF.v
theories/L_Clip2F.v
theories/P_FlowRectF.v
theories/P_FlowTotalF.v
theories/P_FlowIntegralF.v
