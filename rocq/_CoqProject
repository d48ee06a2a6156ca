-Q theories Verif
theories/Base.v
theories/MemoryHandler.v
theories/SortSpec.v
theories/MemoryHandlerProofs.v
theories/RandomSampler.v
theories/RandomSpec.v
theories/RandomSamplerProofs.v
theories/RandomFloat.v
theories/Num.v
theories/PropsMemory.v
theories/PropsRandom.v
theories/Sampling.v
theories/SamplingSpec.v
theories/SamplingProofs.v
theories/PropsSampling.v
theories/KdTree.v
theories/Vec.v
theories/KdSpec.v
theories/KdTreeProofs.v
theories/KdBuildProofs.v
theories/KdQueryProofs.v
theories/KdSpokeProofs.v
theories/SmartTree.v
theories/KdReenumProofs.v
theories/SmartTreeSpec.v
theories/SmartTreeProofs.v
theories/SmartQueryProofs.v
theories/SpokeFlatProofs.v
theories/PropsKdTree.v
theories/Graph.v
theories/GraphSpec.v
theories/GraphProofs.v
theories/PropsGraph.v
theories/Text.v
theories/TextSpec.v
theories/TextProofs.v
theories/TextFilesProofs.v
theories/TextTreeProofs.v
theories/PropsText.v
theories/Sparse.v
theories/SparseSpec.v
theories/SparseProofs.v
theories/SparseDotProofs.v
theories/SparseCholProofs.v
theories/DenseQR.v
theories/DenseQRSpec.v
theories/DenseQRProofs.v
theories/PropsSparse.v
theories/CholUpdate.v
theories/CholUpdateSpec.v
theories/CholUpdateProofs.v
theories/CholRankProofs.v
theories/PropsCholUpdate.v
theories/CholRemoveProofs.v
theories/PropsCholRemove.v
theories/Geometry.v
theories/GeometrySpec.v
theories/GeometryProofs.v
theories/GeometryTriProofs.v
theories/GeometryPowerProofs.v
theories/GeometryAngle.v
theories/GeometryAngleProofs.v
theories/PropsGeometry.v
theories/Spheres.v
theories/SpheresSpec.v
theories/SpheresProofs.v
theories/SpheresLipProofs.v
theories/SpheresTreeLipProofs.v
theories/SpheresOverlapProofs.v
theories/PropsSpheres.v
theories/PolyMesh.v
theories/PolyMeshSpec.v
theories/PolyMeshProofs.v
theories/TreeGrow.v
theories/PolyMeshWeldProofs.v
theories/PolyMeshOrientProofs.v
theories/FeatureSpec.v
theories/FeatureProofs.v
theories/PolyMeshAdjustProofs.v
theories/PropsPolyMesh.v
theories/ActivePool.v
theories/ActivePoolSpec.v
theories/ActivePoolThreadProofs.v
theories/ActivePoolProofs.v
theories/ActivePoolStartProofs.v
theories/ActivePoolEdgeProofs.v
theories/ActivePoolRunSpec.v
theories/ActivePoolRunProofs.v
theories/ActivePoolCoverProofs.v
theories/PropsActivePool.v
theories/Coloring.v
theories/ColoringSpec.v
theories/ColoringProofs.v
theories/PropsColoring.v
theories/SeedPairs.v
theories/SeedPairsSpec.v
theories/SeedPairsProofs.v
theories/SeedCoverProofs.v
theories/SeedRunProofs.v
theories/SeedLoopProofs.v
theories/SeedEndProofs.v
theories/SeedPairsCase.v
theories/PropsSeedPairs.v
theories/PropsSeedReason.v
theories/Validate.v
theories/ValidateSpec.v
theories/ValidateProofs.v
theories/PropsValidate.v
theories/SamplePool.v
theories/SamplePoolSpec.v
theories/SamplePoolProofs.v
theories/PropsSamplePool.v
theories/SurfaceLoop.v
theories/SurfaceShrinkProofs.v
theories/SurfaceLoopSpec.v
theories/SurfaceLoopProofs.v
theories/SurfaceLoopCase.v
theories/PropsSurfaceLoop.v
theories/Regions.v
theories/RegionsSpec.v
theories/RegionsProofs.v
theories/MonitorSpec.v
theories/MonitorProofs.v
theories/PropsRegions.v
theories/Interior.v
theories/InteriorSpec.v
theories/InteriorTreeProofs.v
theories/InteriorProofs.v
theories/InteriorRunProofs.v
theories/PropsInterior.v
theories/Voro.v
theories/VoroSpec.v
theories/VoroProofs.v
theories/PropsVoro.v
theories/VoroMesh.v
theories/VoroMeshSpec.v
theories/VoroMeshProofs.v
theories/VoroMeshRun.v
theories/PropsVoroMesh.v
theories/MeshFiles.v
theories/MeshFilesSpec.v
theories/MeshFilesProofs.v
theories/PropsMeshFiles.v
theories/PointCloud.v
theories/PointCloudSpec.v
theories/PointCloudProofs.v
theories/PropsPointCloud.v
theories/CornerSpheres.v
theories/CornerSpec.v
theories/CornerProofs.v
theories/PropsCorners.v
theories/EdgeLoop.v
theories/EdgeLoopSpec.v
theories/EdgeLoopProofs.v
theories/PropsEdges.v
theories/Exodus.v
theories/ExodusSpec.v
theories/ExodusProofs.v
theories/PropsExodus.v
theories/ExodusSave.v
theories/ExodusSaveSpec.v
theories/ExodusSaveProofs.v
theories/PropsExodusFile.v
theories/EdgeSeeds.v
theories/EdgeSeedsSpec.v
theories/EdgeSeedsProofs.v
theories/PropsEdgeSeeds.v
theories/FeatureDetect.v
theories/DetectSpec.v
theories/DetectProofs.v
theories/PropsFeatures.v
theories/CleanClouds.v
theories/PropsCleanClouds.v
theories/SeedSides.v
theories/SidesSpec.v
theories/SidesProofs.v
theories/SidesEdgeProofs.v
theories/SidesRunProofs.v
theories/PropsSeedSides.v
theories/SurfaceRegions.v
theories/PropsSurfaceRegions.v
theories/VolumeSeeds.v
theories/VolumeSpec.v
theories/VolumeProofs.v
theories/PropsVolume.v
theories/SavedMesh.v
theories/PropsSavedMesh.v
theories/Placement.v
theories/PlacementSpec.v
theories/PlacementProofs.v
theories/PropsPlacement.v
theories/InputModel.v
theories/InputModelSpec.v
theories/InputModelProofs.v
theories/PropsInputModel.v
theories/MeshFeatures.v
theories/MeshFeaturesSpec.v
theories/MeshFeaturesProofs.v
theories/MeshFeaturesBuildProofs.v
theories/PropsMeshFeatures.v
theories/WholeMesh.v
theories/WholeMeshSpec.v
theories/PropsWholeMesh.v
theories/PropsWholeMeshRun.v
theories/ShrinkOpen.v
theories/ShrinkOpenSpec.v
theories/ShrinkOpenProofs.v
theories/PropsShrinkOpen.v
theories/PropsMeshSeeds.v
