-Q theories Verif
theories/Prelude.v
theories/Base64_Model.v
theories/Base64_Spec.v
theories/Base64_Proofs.v
theories/P_Base64.v
theories/Registry_Model.v
theories/NodeTree_Model.v
theories/NodeTree_Spec.v
theories/NodeTree_Tokens.v
theories/NodeTree_Ser.v
theories/NodeTree_Des.v
theories/NodeTree_Round.v
theories/NodeTree_Round2.v
theories/NodeTree_Round3.v
theories/NodeTree_Bytes.v
theories/NodeTree_Main.v
theories/NodeTree_Gen.v
theories/NodeTree_Fix.v
theories/P_NodeTree.v
theories/P_NodeTree2.v
theories/P_NodeTree3.v
theories/MetaVector_Model.v
theories/P_Registry.v
theories/SmartNode_Model.v
theories/SmartNode_Proofs.v
theories/CRef_Model.v
theories/CRef_Proofs.v
theories/P_SmartNode.v
theories/RefThreads_Model.v
theories/RefThreads_Proofs.v
theories/P_RefThreads.v
theories/CApi_Model.v
theories/P_CApi.v
theories/Alloc_Model.v
theories/P_Alloc.v
theories/PoolThreads_Model.v
theories/P_PoolThreads.v
theories/Batch_Model.v
theories/Batch_Proofs.v
theories/Batch_Proofs2.v
theories/P_Batch.v
theories/P_Batch2.v
theories/P_Tileable.v
theories/Ipc_Model.v
theories/P_Ipc.v
theories/Queues_Model.v
theories/P_Queues.v
theories/Names_Model.v
theories/P_Names.v
theories/Simd_Model.v
theories/Utils_Model.v
theories/Nodes_Model.v
theories/Cellular_Model.v
theories/Warp_Model.v
theories/Simd_R.v
theories/Bits.v
theories/P_Hash.v
theories/P_Grad.v
theories/Setters_Model.v
theories/P_Blend.v
theories/P_Modifiers.v
theories/P_Domain.v
theories/Simd_F32.v
theories/P_Float.v
theories/OrderStats.v
theories/Cellular_Spec.v
theories/P_Cellular.v
theories/P_CellularSearch.v
theories/Lattice.v
theories/P_Lattice.v
theories/P_Warp.v
theories/Cache_Model.v
theories/P_Cache.v
theories/NodeEval_Model.v
theories/Lanes.v
theories/P_Lanes.v
theories/Simplex_Model.v
theories/Simplex_Spec.v
theories/Simplex_Geom.v
theories/Simplex_2D.v
theories/P_Simplex.v
theories/P_SimplexCode.v
theories/Simplex_3D.v
theories/P_Simplex3.v
theories/Simplex_Cells.v
theories/P_SimplexJumps.v
theories/Simplex_4D.v
theories/Simplex_4Dmiss.v
theories/P_Simplex4.v
theories/P_SimplexLevels.v
theories/SimplexWarp_Model.v
theories/SimplexWarp_Spec.v
theories/P_SimplexWarpOuter.v
theories/P_SimplexWarpOuter4.v
theories/P_SimplexWarpOrtho.v
theories/P_SimplexWarpNorm.v
theories/P_SimplexWarpNorm4.v
theories/P_SimplexWarpBugs.v
theories/P_SimplexWarp.v
theories/Boxes.v
theories/BoxesSound.v
theories/BoxesHeights.v
theories/BoxesAll.v
theories/BoxesCases.v
theories/BoxesRun4d.v
theories/BoxesRun4b.v
theories/BoxesRun4a.v
theories/BoxesRun4c.v
theories/BoxesRun3a.v
theories/BoxesRun3b.v
theories/BoxesRun3c.v
theories/Boxes63.v
theories/BoxesRun2.v
theories/SimplexRange.v
theories/P_SimplexRange.v
theories/SimplexReach.v
theories/P_SimplexReach.v
theories/P_Levels.v
theories/P_SimplexCode4.v
theories/P_SuperCode4.v
theories/Mesh_Spec.v
theories/Mesh_Model.v
theories/Mesh_Local.v
theories/P_MeshClosed.v
theories/P_MeshVertex.v
theories/P_Mesh.v
theories/P_MeshReads.v
theories/Bloxel_Spec.v
theories/Bloxel_Model.v
theories/P_Bloxel.v
theories/Height_Model.v
theories/P_Height.v
theories/P_MeshFan.v
