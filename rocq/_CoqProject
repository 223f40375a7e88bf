-Q theories Verif
theories/Base.v
theories/M_Perm.v
theories/S_Perm.v
theories/P_Perm.v
theories/Properties_Perm.v
theories/M_SharedPtr.v
theories/S_SharedPtr.v
theories/P_SharedPtr.v
theories/Properties_SharedPtr.v
theories/M_SegAlloc.v
theories/S_SegAlloc.v
theories/P_SegAlloc.v
theories/Properties_SegAlloc.v
theories/M_Repository.v
theories/S_Repository.v
theories/P_Repository.v
theories/Properties_Repository.v
theories/M_Topology.v
theories/S_Topology.v
theories/P_Topology.v
theories/P_TopologyErase.v
theories/P_TopologyValid.v
theories/P_TopologyOrder.v
theories/P_TopologyVertices.v
theories/P_TopologyCanonical.v
theories/P_TopologyApi.v
theories/P_TopologyApi2.v
theories/Properties_Topology.v
theories/Properties_TopologyCases.v
theories/Properties_TopologyCounts.v
theories/M_Mesh.v
theories/S_Mesh.v
theories/P_Mesh.v
theories/P_MeshBoundary.v
theories/P_MeshBuild.v
theories/P_MeshDup.v
theories/Properties_Mesh.v
theories/Properties_MeshCases.v
theories/M_Tensor.v
theories/S_Tensor.v
theories/P_Tensor.v
theories/M_Geometry.v
theories/S_Geometry.v
theories/P_Atan2.v
theories/P_Geometry.v
theories/P_Metric.v
theories/P_Volume.v
theories/Properties_Geometry.v
theories/Properties_GeometryCases.v
theories/Properties_GeometryPoints.v
theories/Properties_Tensor.v
theories/M_Tetra.v
theories/P_TetraGeometry.v
theories/P_TetraTiling.v
theories/S_Refine.v
theories/P_Refine.v
theories/P_Bernstein.v
theories/P_Converge.v
theories/S_Tetra.v
theories/P_Tetra.v
theories/Properties_Tetra.v
theories/Properties_TetraCases.v
theories/M_Partition.v
theories/S_Partition.v
theories/P_Partition.v
theories/Properties_Partition.v
theories/Properties_PartitionCases.v
theories/M_Summit.v
theories/S_Summit.v
theories/P_Summit.v
theories/Properties_Summit.v
theories/Properties_SummitCases.v
theories/M_Discrete.v
theories/S_Discrete.v
theories/M_VTK.v
theories/P_VTK.v
theories/Properties_VTK.v
theories/Properties_VTKCases.v
theories/M_System.v
theories/S_System.v
theories/P_System.v
theories/Properties_System.v
theories/Properties_SystemCases.v
theories/M_Options.v
theories/S_Options.v
theories/Properties_Options.v
theories/M_Flip.v
theories/P_Flip.v
theories/S_Flip.v
theories/Properties_Flip.v
theories/M_Functions.v
theories/S_Functions.v
theories/P_Functions.v
theories/Properties_Functions.v
theories/M_Quadrature.v
theories/S_Quadrature.v
theories/P_Quadrature.v
theories/P_Integrator.v
theories/Properties_Quadrature.v
theories/Properties_Integrator.v
theories/M_Fem.v
theories/S_Fem.v
theories/P_Fem.v
theories/P_FemBlocks.v
theories/P_FemNorms.v
theories/Properties_Fem.v
theories/Properties_FemNorms.v
theories/M_Materials.v
theories/S_Materials.v
theories/P_Materials.v
theories/P_Gent.v
theories/P_Consistency.v
theories/Properties_Materials.v
theories/P_Galerkin.v
theories/M_Poisson.v
theories/S_Poisson.v
theories/P_Poisson.v
theories/Properties_Poisson.v
theories/P_Line.v
theories/Properties_Line.v
theories/Properties_PoissonCases.v
theories/P_Tetrahedra.v
theories/Properties_Tetrahedra.v
theories/M_Solver.v
theories/S_Solver.v
theories/P_Solver.v
theories/P_SolverMesh.v
theories/Properties_Solver.v
theories/P_Elimination.v
theories/Properties_SolverCases.v
theories/Properties_SolverCalls.v
theories/P_Poly.v
theories/P_Gauss.v
theories/S_Stokes.v
theories/P_Stokes.v
theories/P_StokesMesh.v
theories/Properties_Stokes.v
theories/Properties_StokesCases.v
theories/Properties_Refine.v
theories/Properties_RefineCases.v
theories/S_Rate.v
theories/P_Rate.v
theories/Properties_Rate.v
theories/S_Rate2.v
theories/P_Rate2.v
theories/Properties_Rate2.v
theories/P_LineError.v
theories/P_SolverField.v
theories/Properties_LineError.v
theories/Properties_LineErrorCases.v
theories/S_Maximum.v
theories/P_Maximum.v
theories/Properties_Maximum.v
theories/Properties_MaximumCases.v
theories/M_Parallel.v
theories/S_Parallel.v
theories/P_Parallel.v
theories/Properties_Parallel.v
theories/Properties_ParallelCases.v
theories/S_Energy.v
theories/P_Energy.v
theories/P_EnergyError.v
theories/Properties_Energy.v
theories/Properties_EnergyCases.v
theories/P_EnergyQuadratic.v
theories/Properties_EnergyQuadratic.v
theories/Properties_EnergyQuadraticCases.v
theories/M_VTKFiles.v
theories/S_VTKFiles.v
theories/P_VTKFiles.v
theories/Properties_VTKFiles.v
theories/Properties_VTKFilesCases.v
