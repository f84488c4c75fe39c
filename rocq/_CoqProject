-Q theories Verif
theories/Base.v
theories/BaseRadix.v
theories/BaseQc.v
theories/BaseSort.v
theories/M_Numpy.v
theories/M_Grid.v
theories/S_Grid.v
theories/P_Grid.v
theories/T_Grid.v
theories/S_Spline.v
theories/P_Basis.v
theories/P_Refine.v
theories/P_Spline.v
theories/S_Value.v
theories/P_Value.v
theories/M_KnotInsert.v
theories/S_KnotInsert.v
theories/P_KnotInsert.v
theories/P_KnotGlobal.v
theories/W_KnotInsert.v
theories/T_KnotInsert.v
theories/M_Extract.v
theories/P_Extract.v
theories/T_Extract.v
theories/M_Reparam.v
theories/S_Reparam.v
theories/P_Reparam.v
theories/W_Reparam.v
theories/T_Reparam.v
theories/M_Knots.v
theories/S_Knots.v
theories/P_Knots.v
theories/P_Insert.v
theories/P_Greville.v
theories/W_Knots.v
theories/T_Knots.v
theories/M_Bezier.v
theories/S_Bezier.v
theories/P_Bezier.v
theories/M_Rational.v
theories/S_Rational.v
theories/P_Rational.v
theories/W_Bezier.v
theories/T_Bezier.v
theories/M_Solve.v
theories/S_Solve.v
theories/P_Solve.v
theories/M_Prox.v
theories/S_Prox.v
theories/P_Prox.v
theories/W_Prox.v
theories/T_Prox.v
theories/M_Core.v
theories/S_Core.v
theories/P_Core.v
theories/P_State.v
theories/M_Elevate.v
theories/S_Elevate.v
theories/P_Elevate.v
theories/W_Core.v
theories/T_Core.v
theories/M_Coords.v
theories/S_Coords.v
theories/P_Coords.v
theories/W_Coords.v
theories/T_Coords.v
theories/M_Threads.v
theories/S_Threads.v
theories/P_Threads.v
theories/T_Threads.v
theories/M_Interfaces.v
theories/S_Interfaces.v
theories/P_Interfaces.v
theories/W_Interfaces.v
theories/T_Interfaces.v
theories/M_Boundaries.v
theories/S_Boundaries.v
theories/P_Boundaries.v
theories/P_Continuity.v
theories/W_Boundaries.v
theories/T_Boundaries.v
theories/M_Patches.v
theories/S_Patches.v
theories/P_Patches.v
theories/P_Caches.v
theories/W_Patches.v
theories/T_Patches.v
theories/M_Files.v
theories/S_Files.v
theories/P_Files.v
theories/W_Files.v
theories/T_Files.v
theories/M_Irit.v
theories/S_Irit.v
theories/P_Irit.v
theories/W_Irit.v
theories/T_Irit.v
theories/M_Mfem.v
theories/S_Mfem.v
theories/P_Mfem.v
theories/W_Mfem.v
theories/T_Mfem.v
theories/M_Gismo.v
theories/S_Gismo.v
theories/P_Gismo.v
theories/W_Gismo.v
theories/T_Gismo.v
theories/M_Pieces.v
theories/S_Pieces.v
theories/P_Pieces.v
theories/W_Pieces.v
theories/T_Pieces.v
theories/M_Micro.v
theories/S_Micro.v
theories/P_Micro.v
theories/W_Micro.v
theories/T_Micro.v
theories/M_Create.v
theories/S_Create.v
theories/P_Create.v
theories/P_Revolve.v
theories/P_Shapes.v
theories/W_Create.v
theories/T_Create.v
theories/M_Fit.v
theories/S_Fit.v
theories/P_Fit.v
theories/P_FitLs.v
theories/P_FitSurf.v
theories/P_FitCurve.v
theories/P_FitPlaced.v
theories/W_Fit.v
theories/T_Fit.v
theories/M_Ffd.v
theories/S_Ffd.v
theories/P_Ffd.v
theories/W_Ffd.v
theories/T_Ffd.v
theories/S_Deriv.v
theories/P_Deriv.v
theories/M_Integrate.v
theories/S_Integrate.v
theories/P_Integrate.v
theories/P_View.v
theories/P_IntWitness.v
theories/W_Integrate.v
theories/T_Integrate.v
theories/S_Exact.v
theories/P_Poly.v
theories/P_Exact.v
theories/P_ExactVol.v
theories/W_Exact.v
theories/T_Exact.v
theories/M_Determinant.v
theories/P_Zeros.v
theories/P_SplineSpace.v
theories/P_Smooth.v
theories/P_AxisClass.v
theories/P_Placed.v
theories/P_TensorSpace.v
theories/S_Determinant.v
theories/P_Determinant.v
theories/W_Determinant.v
theories/T_Determinant.v
theories/M_Mapper.v
theories/S_Mapper.v
theories/P_Total.v
theories/P_Mapper.v
theories/P_MapperBack.v
theories/W_Mapper.v
theories/T_Mapper.v
theories/M_Tiles.v
theories/M_Tile2D.v
theories/M_Tile3D.v
theories/M_TileMake.v
theories/S_Tiles.v
theories/S_TileLimits.v
theories/P_Tiles.v
theories/P_Tile2D.v
theories/P_TileLattice.v
theories/P_TileSnappy.v
theories/P_TileOctagon.v
theories/P_TileCross3.v
theories/P_TileWall.v
theories/P_Tile3D.v
theories/P_TileVoid.v
theories/P_TileNot.v
theories/P_TileTurned.v
theories/P_TileTouch.v
theories/W_Tiles.v
theories/T_Tiles.v
theories/M_Extraction.v
theories/S_Extraction.v
theories/P_Extraction.v
theories/W_Extraction.v
theories/T_Extraction.v
theories/M_Primitives.v
theories/S_Primitives.v
theories/P_Round.v
theories/P_Primitives.v
theories/W_Primitives.v
theories/T_Primitives.v
theories/M_SubSpline.v
theories/S_SubSpline.v
theories/P_SubSpline.v
theories/P_SubRounds.v
theories/P_SubCut.v
theories/P_SubValue.v
theories/P_SubEnd.v
theories/P_SubFinal.v
theories/P_SubWitness.v
theories/P_SubExample.v
theories/W_SubSpline.v
theories/T_SubSpline.v
theories/M_SubDict.v
theories/S_SubDict.v
theories/P_SubDict.v
theories/W_SubDict.v
theories/T_SubDict.v
theories/M_Check.v
theories/S_Check.v
theories/P_Check.v
theories/W_Check.v
theories/T_Check.v
theories/S_TileTurn.v
theories/P_TileTurn.v
theories/W_TileTurn.v
theories/T_TileTurn.v
theories/M_Edges.v
theories/S_Edges.v
theories/P_Edges.v
theories/W_Edges.v
theories/T_Edges.v
theories/M_Bases.v
theories/S_Bases.v
theories/P_Bases.v
theories/W_Bases.v
theories/T_Bases.v
theories/P_BasesView.v
theories/P_BasesLift.v
theories/P_BasesTop.v
theories/M_Faces.v
theories/S_Faces.v
theories/P_Faces.v
theories/W_Faces.v
theories/T_Faces.v
theories/P_FacesClosed.v
theories/P_FacesTop.v
theories/P_Cone.v
theories/M_Reduce.v
theories/S_Reduce.v
theories/P_Reduce.v
theories/W_Reduce.v
theories/T_Reduce.v
theories/P_ReduceWitness.v
theories/M_Cats.v
theories/S_Cats.v
theories/P_Cats.v
theories/W_Cats.v
theories/T_Cats.v
theories/S_TileFit.v
theories/P_TileFit.v
theories/W_TileFit.v
theories/T_TileFit.v
theories/M_TileInverse.v
theories/P_TileFill.v
theories/P_TileInverse.v
theories/P_TileInverseGlue.v
theories/P_TileFitAll.v
theories/P_TileInverseTurned.v
