-Q theories Verif
theories/AabbZ.v
theories/P_Aabb.v
theories/Broadphase.v
theories/Naive.v
theories/P_Naive.v
theories/HTree.v
theories/HTreeRun.v
theories/P_HTree.v
theories/QueryComb.v
theories/DynTree.v
theories/P_DynTree.v
theories/HTreeArray.v
theories/P_HTreeArray.v
theories/SortSearch.v
theories/QueryOpt.v
theories/SSaP.v
theories/P_SSaP.v
theories/VecR.v
theories/AabbDist.v
theories/P_AabbDist.v
theories/IntervalTree.v
theories/P_IntervalTree.v
theories/IntervalManager.v
theories/P_IntervalManager.v
theories/SpatialHash.v
theories/P_SpatialHash.v
theories/Morton.v
theories/P_Morton.v
theories/SaP.v
theories/P_SaP.v
theories/BvhBuild.v
theories/BvhModel.v
theories/P_BvhModel.v
theories/Traversal.v
theories/TraversalDist.v
theories/TraversalMesh.v
theories/P_Traversal.v
theories/Results.v
theories/P_Results.v
theories/Interval.v
theories/P_Interval.v
theories/Taylor.v
theories/P_Taylor.v
theories/Motion.v
theories/P_Motion.v
theories/MotionTaylor.v
theories/P_MotionTaylor.v
theories/Advance.v
theories/P_Advance.v
theories/KDop.v
theories/P_KDop.v
theories/Obb.v
theories/P_Obb.v
theories/Eigen3.v
theories/P_Eigen3.v
theories/Fit.v
theories/P_Fit.v
theories/Project.v
theories/P_Project.v
theories/Prim.v
theories/P_Prim.v
theories/Poly.v
theories/P_Poly.v
theories/Convert.v
theories/P_Convert.v
theories/Octree.v
theories/P_Octree.v
theories/ExpandDist.v
theories/P_ExpandDist.v
theories/ShapeBV.v
theories/P_ShapeBV.v
theories/BoundVerts.v
theories/P_BoundVerts.v
theories/HalfBV.v
theories/P_HalfBV.v
theories/HalfQuery.v
theories/P_HalfQuery.v
theories/P_PlaneQuery.v
theories/ShapeMesh.v
theories/MeshWeb.v
theories/P_ShapeMesh.v
theories/TriDist.v
theories/TriGeom.v
theories/P_TriDist.v
theories/Support.v
theories/P_Support.v
theories/ConvexMesh.v
theories/P_ConvexMesh.v
theories/Integral.v
theories/MassProps.v
theories/P_MassProps.v
theories/Gjk.v
theories/P_Gjk.v
theories/Epa.v
theories/P_Epa.v
theories/CcdGjk.v
theories/P_CcdGjk.v
theories/P_CcdDist.v
theories/CcdPoly.v
theories/P_CcdPoly.v
theories/CcdEpa.v
theories/P_CcdEpa.v
theories/Zonotope.v
theories/BoxBox.v
theories/P_BoxBox.v
theories/BoxClip.v
theories/P_BoxFace.v
theories/SphereTri.v
theories/P_SphereTri.v
theories/TriSat.v
theories/P_TriSat.v
theories/MeshCollide.v
theories/P_MeshCollide.v
theories/P_EpaStart.v
theories/MeshShape.v
theories/P_MeshShape.v
theories/Dispatch.v
theories/P_Dispatch.v
theories/MeshFlat.v
theories/P_MeshFlat.v
theories/ShapePair.v
theories/P_ShapePair.v
theories/Splitter.v
theories/P_Splitter.v
theories/ShapeDist.v
theories/P_ShapeDist.v
theories/Kios.v
theories/P_Kios.v
theories/RectSeg.v
theories/P_RectSeg.v
theories/ObbRss.v
theories/P_ObbRss.v
