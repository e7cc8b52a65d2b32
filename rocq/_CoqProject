-Q theories Verif
theories/Base.v
theories/Float64.v
theories/OrientModel.v
theories/MeshModel.v
theories/BaseFacts.v
theories/Float64Facts.v
theories/DedupFacts.v
theories/OrientFacts.v
theories/MeshSpec.v
theories/LabelFacts.v
theories/MeshFacts.v
theories/MeshCtor.v
theories/MeshOps.v
theories/MeshExtract.v
theories/OrientConsist.v
theories/MeshMisc.v
theories/MeshExamples.v
theories/MeshPropFacts.v
theories/Props_Mesh.v
theories/Vec.v
theories/GeomModel.v
theories/GeomFacts.v
theories/OutwardSpec.v
theories/OutwardFacts.v
theories/Tables.v
theories/QuadModel.v
theories/QuadFacts.v
theories/KronrodFacts.v
theories/Props_Geom.v
theories/Props_Quad.v
theories/PathModel.v
theories/PathSpec.v
theories/PathFacts.v
theories/PathMeshFacts.v
theories/PathOpsFacts.v
theories/PolyFacts.v
theories/Props_Path.v
theories/SurfaceModel.v
theories/SurfaceFacts.v
theories/Props_Surface.v
theories/ThreadModel.v
theories/ThreadFacts.v
theories/MatrixFillFacts.v
theories/Props_Thread.v
theories/MeshOutward.v
theories/OutwardMeshFacts.v
theories/Props_Outward.v
theories/ExcitationModel.v
theories/ExcitationFacts.v
theories/BoundaryFacts.v
theories/Props_Excitation.v
theories/FieldModel.v
theories/FieldFacts.v
theories/SolverModel.v
theories/SolverFacts.v
theories/Props_Solver.v
theories/SeriesModel.v
theories/SeriesFacts.v
theories/InterpFacts.v
theories/Props_Series.v
theories/DispatchModel.v
theories/DispatchFacts.v
theories/Props_Dispatch.v
theories/Field3DFacts.v
theories/TracingModel.v
theories/TracingFacts.v
theories/TracingMore.v
theories/OrderSpec.v
theories/OrderFacts.v
theories/FocusModel.v
theories/FocusFacts.v
theories/Props_Tracing.v
theories/Props_Field.v
theories/EllipticSpec.v
theories/EllipticFacts.v
theories/RingModel.v
theories/RingFacts.v
theories/LoopFacts.v
theories/Props_Elliptic.v
theories/CollectionModel.v
theories/Props_Collection.v
theories/MesherModel.v
theories/MesherFacts.v
theories/MesherRun.v
theories/MesherSpec.v
theories/MesherTile.v
theories/MesherTri.v
theories/MesherSurf.v
theories/MesherEnd.v
theories/MesherWhole.v
theories/MesherTotal.v
theories/MesherGentle.v
theories/MesherShapes.v
theories/MesherPaths.v
theories/MesherFine.v
theories/MesherSim.v
theories/MesherRefute.v
theories/MesherUniform.v
theories/MesherEven.v
theories/MesherBox.v
theories/Props_Mesher.v
theories/TriangleModel.v
theories/TriangleSpec.v
theories/TriangleFacts.v
theories/Props_Triangle.v
theories/MatrixModel.v
theories/MatrixSpec.v
theories/MatrixSpecFacts.v
theories/MatrixFacts.v
theories/Props_Matrix.v
theories/Props_Charges.v
theories/EdgeModel.v
theories/Props_Edges.v
theories/Axial3DModel.v
theories/Axial3DFacts.v
theories/Props_Axial3D.v
theories/HarmonicFacts.v
theories/AxialTable.v
theories/Props_Expansion.v
theories/CollMeshModel.v
theories/CollMeshSpec.v
theories/CollMeshFacts.v
theories/Props_MeshOps.v
theories/SelfPotFacts.v
theories/TriangleClosedFacts.v
theories/TriangleDiagFacts.v
theories/Props_SelfPotential.v
theories/SimilarFacts.v
theories/Props_Similar.v
theories/AxialModel.v
theories/HermiteError.v
theories/LegendreFacts.v
theories/AxialErrorFacts.v
theories/Props_AxialError.v
theories/RadialSeriesFacts.v
theories/RingSeriesFacts.v
theories/Props_RadialSeries.v
theories/GegenbauerFacts.v
theories/FieldSeriesFacts.v
theories/CoulombFacts.v
theories/Props_FieldSeries.v
theories/ConvSpec.v
theories/ConvFacts.v
theories/ConvStep.v
theories/ConvLocal.v
theories/ConvGlobal.v
theories/ExprSpec.v
theories/ExprFacts.v
theories/ExprSmooth.v
theories/BemSmooth.v
theories/Props_Convergence.v
theories/ProgressSpec.v
theories/ProgressFacts.v
theories/ProgressLoop.v
theories/AxialBound.v
theories/Props_Progress.v
theories/EllipticSeries.v
theories/EllipticExpand.v
theories/EllipticLog.v
theories/EllipticLogSeries.v
theories/PolyBound.v
theories/EllipticNum.v
theories/EllipticCert.v
theories/EllipticWhole.v
theories/EllipticCheckK.v
theories/EllipticCheckE.v
theories/EllipticCode.v
theories/Props_EllipticError.v
theories/MemModel.v
theories/MemFacts.v
theories/BackendModel.v
theories/BackendSafe.v
theories/BackendValues.v
theories/BackendCalls.v
theories/BackendReturns.v
theories/BackendTables.v
theories/BackendBuffers.v
theories/BackendMatrix.v
theories/BackendSeries.v
theories/BackendSeries3D.v
theories/BackendUnsafe.v
theories/BackendFaults.v
theories/BackendLink.v
theories/BackendAssemble.v
theories/BackendTraj.v
theories/Props_Backend.v
theories/Series3DFacts.v
theories/Series3DFieldFacts.v
theories/Series3DZFacts.v
theories/Props_Series3D.v
theories/TraceMemModel.v
theories/TraceMemSpec.v
theories/TraceMemFacts.v
theories/TraceMemBlocks.v
theories/TraceMemFields.v
theories/TraceMemCalls.v
theories/TraceMemErrors.v
theories/TraceMemBounds.v
theories/Props_TraceMem.v
theories/MotionModel.v
theories/MotionFacts.v
theories/MotionSolve.v
theories/MotionRadial.v
theories/MotionTrace.v
theories/Props_Motion.v
theories/EnergyFacts.v
theories/Props_Energy.v
theories/ScaleModel.v
theories/ScaleTrace.v
theories/ScaleSolve.v
theories/Props_Scale.v
theories/SymmetryModel.v
theories/SymmetryFacts.v
theories/Props_Symmetry.v
theories/ExprTube.v
theories/RadialSmooth.v
theories/Props_RadialConvergence.v
theories/RadialBound.v
theories/Props_RadialProgress.v
theories/NumberingModel.v
theories/NumberingFacts.v
theories/Props_Numbering.v
theories/ReverseModel.v
theories/Props_Reverse.v
theories/Props_Momentum.v
theories/Props_Speed.v
