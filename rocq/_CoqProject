-Q theories Verif
theories/FileDist_Model.v
theories/FileDist_Spec.v
theories/FileDist_Proofs.v
theories/Props_IO.v
theories/Timestep_Model.v
theories/Timestep_Spec.v
theories/Timestep_Proofs.v
theories/ActiveList_Proofs.v
theories/Props_Timestep.v
theories/Sweep_Model.v
theories/Sweep_Spec.v
theories/Sweep_Util.v
theories/Sweep_Local.v
theories/Sweep_Inv.v
theories/Sweep_Count.v
theories/Sweep_Steps.v
theories/Sweep_Steps2.v
theories/Sweep_Steps3.v
theories/Sweep_Safety.v
theories/Sweep_Value.v
theories/Sweep_Value2.v
theories/Sweep_Exists.v
theories/Sweep_Live.v
theories/Sweep_Live2.v
theories/Sweep_Levels.v
theories/Sweep_More.v
theories/Sweep_Split.v
theories/Sweep_Leave.v
theories/Sweep_Check.v
theories/Sweep_Examples.v
theories/Sweep_Final.v
theories/Props_Sweep.v
theories/Fair.v
theories/Barrier_Model.v
theories/Barrier_Spec.v
theories/Barrier_Proofs.v
theories/Props_Output.v
theories/DataByRank_Model.v
theories/DataByRank_Spec.v
theories/DataByRank_Proofs.v
theories/Exchange_Model.v
theories/Exchange_Spec.v
theories/Exchange_Proofs.v
theories/Props_Exchange.v
theories/Encoding_Model.v
theories/Encoding_Proofs.v
theories/Props_Encoding.v
theories/Decomp_Model.v
theories/Decomp_Spec.v
theories/Decomp_Proofs.v
theories/Props_Domain.v
theories/ParticleExchange_Model.v
theories/ParticleExchange_Proofs.v
theories/Props_Particles.v
theories/Hilbert_Model.v
theories/Hilbert_Spec.v
theories/Hilbert_Curve.v
theories/Hilbert_Proofs.v
theories/Ownership_Proofs.v
theories/Props_Hilbert.v
theories/Box_Model.v
theories/Box_Spec.v
theories/Box_Proofs.v
theories/Tree_Model.v
theories/Tree_Spec.v
theories/Tree_Proofs.v
theories/Props_Box.v
theories/Props_Tree.v
theories/Cartesian_Model.v
theories/Cartesian_Spec.v
theories/Cartesian_Proofs.v
theories/Cartesian_Grid.v
theories/Cartesian_Sweep.v
theories/Cartesian_Final.v
theories/Props_Cartesian.v
theories/Chem_Model.v
theories/Chem_Spec.v
theories/Chem_Proofs.v
theories/Props_Chem.v
theories/Rotation_Model.v
theories/Rotation_Spec.v
theories/Rotation_Proofs.v
theories/Props_Rotation.v
theories/Params_Model.v
theories/Params_Spec.v
theories/Params_Proofs.v
theories/Props_Params.v
theories/Sources_Model.v
theories/Sources_Spec.v
theories/Sources_Proofs.v
theories/Props_Sources.v
theories/Collective_Model.v
theories/Collective_Proofs.v
theories/Remap_Model.v
theories/Remap_Spec.v
theories/Remap_Proofs.v
theories/Props_Remap.v
theories/ReadGrid_Model.v
theories/ReadGrid_Spec.v
theories/ReadGrid_Proofs.v
theories/Props_ReadGrid.v
theories/Cyclic_Model.v
theories/Cyclic_Spec.v
theories/Cyclic_Proofs.v
theories/Props_Cyclic.v
theories/Timer_Model.v
theories/Timer_Spec.v
theories/Timer_Proofs.v
theories/Props_Timer.v
theories/Cosmology_Model.v
theories/Cosmology_Spec.v
theories/Cosmology_Proofs.v
theories/Props_Cosmology.v
theories/Bpass_Table.v
theories/Bpass_Model.v
theories/Bpass_Spec.v
theories/Bpass_Proofs.v
theories/Props_Bpass.v
theories/LinSolve_Model.v
theories/LinSolve_Spec.v
theories/LinSolve_Proofs.v
theories/Geometry_Model.v
theories/Geometry_Spec.v
theories/Geometry_Proofs.v
theories/GeometrySolve_Proofs.v
theories/GeometryContains_Proofs.v
theories/GeometryTriangle_Proofs.v
theories/GeometryTetra_Proofs.v
theories/Props_Geometry.v
theories/Delaunay_Model.v
theories/Delaunay_Spec.v
theories/DelaunayBuild_Proofs.v
theories/DelaunaySurgery_Proofs.v
theories/DelaunayPlan_Proofs.v
theories/Delaunay2_Proofs.v
theories/DelaunayInsert_Proofs.v
theories/Delaunay2Insert_Proofs.v
theories/Delaunay3_Proofs.v
theories/Delaunay23_Proofs.v
theories/Delaunay32_Proofs.v
theories/Delaunay3Insert_Proofs.v
theories/DelaunayGeo_Model.v
theories/DelaunayGeo_Proofs.v
theories/DelaunayFinal_Proofs.v
theories/Props_Delaunay.v
theories/DelaunayPath_Proofs.v
theories/Halo_Model.v
theories/Halo_Spec.v
theories/Halo_Proofs.v
theories/HaloGeo_Model.v
theories/HaloGeo_Spec.v
theories/HaloGeo_Proofs.v
theories/HaloFinal_Proofs.v
theories/Props_Halo.v
theories/Circle2_Proofs.v
theories/Tiling2_Proofs.v
theories/DelaunayGlobal2_Proofs.v
theories/DelaunayGlobal_Spec.v
theories/DelaunayUnique2_Proofs.v
theories/DelaunayRemap_Model.v
theories/DelaunayRemap_Proofs.v
theories/Props_Delaunay2.v
theories/HaloDelaunay_Spec.v
theories/HaloDelaunay_Model.v
theories/HaloDelaunay_Proofs.v
theories/Props_HaloDelaunay.v
theories/Cone2_Proofs.v
theories/Voronoi_Model.v
theories/Voronoi_Spec.v
theories/VoronoiRing_Proofs.v
theories/Voronoi_Proofs.v
theories/VoronoiConstruct_Proofs.v
theories/Props_Voronoi.v
theories/VoronoiGrid_Model.v
theories/VoronoiGrid_Spec.v
theories/VoronoiGrid_Proofs.v
theories/VoronoiGridWhole_Proofs.v
theories/VoronoiPeriodic_Proofs.v
theories/VoronoiGridSweep_Proofs.v
theories/VoronoiGridFinal_Proofs.v
theories/VoronoiLattice_Proofs.v
theories/Props_VoronoiGrid.v
theories/Sphere3_Proofs.v
theories/Predicates3_Proofs.v
theories/Tiling3_Proofs.v
theories/Delaunay3Exact_Proofs.v
theories/DelaunayFlip3_Proofs.v
theories/DelaunayLink3_Proofs.v
theories/DelaunayGlobal3_Proofs.v
theories/DelaunayGlobal3_Spec.v
theories/DelaunayUnique3_Proofs.v
theories/DelaunayRemap3_Model.v
theories/DelaunayRemap3_Proofs.v
theories/DelaunayTotal3_Proofs.v
theories/Props_Delaunay3.v
theories/Voronoi3_Model.v
theories/Voronoi3_Spec.v
theories/VoronoiRing3_Proofs.v
theories/Voronoi3_Proofs.v
theories/VoronoiConstruct3_Proofs.v
theories/Props_Voronoi3.v
theories/HaloDelaunay3_Model.v
theories/HaloDelaunay3_Spec.v
theories/DelaunayStar3_Proofs.v
theories/HaloDelaunay3_Proofs.v
theories/Props_HaloDelaunay3.v
theories/VoronoiGrid3_Model.v
theories/VoronoiGrid3_Spec.v
theories/VoronoiGrid3_Proofs.v
theories/VoronoiGridWhole3_Proofs.v
theories/VoronoiPeriodic3_Proofs.v
theories/VoronoiGridSweep3_Proofs.v
theories/VoronoiGridFinal3_Proofs.v
theories/VoronoiLattice3_Proofs.v
theories/Props_VoronoiGrid3.v
theories/Deadlock_Model.v
theories/Deadlock_Spec.v
theories/Deadlock_Proofs.v
theories/Deadlock_Voronoi.v
theories/Props_Deadlock.v
theories/Units_Model.v
theories/Units_Spec.v
theories/Units_Proofs.v
theories/Props_Units.v
theories/Directions_Model.v
theories/Directions_Spec.v
theories/Directions_Proofs.v
theories/Props_Directions.v
theories/TimeSeries_Model.v
theories/TimeSeries_Spec.v
theories/TimeSeries_Proofs.v
theories/Props_TimeSeries.v
theories/Performance_Model.v
theories/Performance_Spec.v
theories/Performance_Proofs.v
theories/Props_Performance.v
theories/Plugins_Model.v
theories/Plugins_Spec.v
theories/Plugins_Proofs.v
theories/Props_Plugins.v
theories/Float_Model.v
theories/Float_Spec.v
theories/Float_Proofs.v
theories/Float_InSphere_Proofs.v
theories/Float_Contains_Proofs.v
theories/Float_Witness_Proofs.v
theories/Float_Coord_Proofs.v
theories/Float_Wrap_Proofs.v
theories/Float_Key_Proofs.v
theories/Props_Float.v
theories/FloatFlip_Model.v
theories/FloatFlip_Spec.v
theories/FloatSolve_Proofs.v
theories/FloatFlip_Proofs.v
theories/FloatLine_Proofs.v
theories/FloatSolve2_Proofs.v
theories/FloatContains2_Proofs.v
theories/FloatCircle_Proofs.v
theories/FloatFlip_Witness_Proofs.v
theories/Props_FloatFlip.v
theories/Sync_Spec.v
theories/Sync_Model.v
theories/Sync_Proofs.v
theories/Props_Sync.v
theories/StartUp_Model.v
theories/StartUp_Spec.v
theories/StartUp_Proofs.v
theories/Props_StartUp.v
theories/StarSources_Model.v
theories/StarSources_Proofs.v
theories/Props_StarSources.v
theories/HydrogenRates_Model.v
theories/HydrogenRates_Spec.v
theories/HydrogenRates_Proofs.v
theories/Props_HydrogenRates.v
theories/TreeFuel_Proofs.v
theories/HaloEnd_Proofs.v
theories/Props_HaloEnd.v
theories/FloatLevel_Model.v
theories/FloatLevel_Spec.v
theories/FloatLevel_Proofs.v
theories/Props_FloatLevel.v
theories/OutputNames_Model.v
theories/OutputNames_Spec.v
theories/OutputNames_Proofs.v
theories/Props_OutputNames.v
theories/InputListing_Model.v
theories/InputListing_Spec.v
theories/InputListing_Proofs.v
theories/Props_InputListing.v
theories/OutputFields_Model.v
theories/OutputFields_Spec.v
theories/OutputFields_Proofs.v
theories/Props_OutputFields.v
theories/FloatTime_Model.v
theories/FloatTime_Spec.v
theories/FloatTime_Proofs.v
theories/Props_FloatTime.v
theories/FloatRate_Model.v
theories/FloatRate_Spec.v
theories/FloatRate_Proofs.v
theories/Props_FloatRate.v
theories/FloatChem_Model.v
theories/FloatChem_Spec.v
theories/FloatChem_Proofs.v
theories/Props_FloatChem.v
