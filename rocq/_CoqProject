-Q theories Verif
theories/Base.v
theories/M_Int.v
theories/S_Int.v
theories/P_Int.v
theories/P_Rand.v
theories/C_Int.v
theories/M_Sort.v
theories/S_Sort.v
theories/P_Sort.v
theories/P_Sort2.v
theories/C_Sort.v
theories/C_Graph.v
theories/M_Graph.v
theories/P_Graph.v
theories/P_GraphBase.v
theories/S_Graph.v
theories/C_Induce.v
theories/M_Induce.v
theories/P_GraphList.v
theories/P_Induce.v
theories/S_Induce.v
theories/C_Arch.v
theories/M_Arch.v
theories/P_Arch.v
theories/P_ArchVar.v
theories/P_Ltleaf.v
theories/P_Mesh.v
theories/P_Mesh2.v
theories/P_Tleaf.v
theories/S_Arch.v
theories/C_Cmpltw.v
theories/M_Cmpltw.v
theories/P_Cmpltw.v
theories/S_Cmpltw.v
theories/C_Memory.v
theories/C_String.v
theories/C_Values.v
theories/M_Memory.v
theories/M_String.v
theories/M_Values.v
theories/Mem.v
theories/P_Memory.v
theories/P_String.v
theories/P_Values.v
theories/S_Memory.v
theories/S_String.v
theories/S_Values.v
theories/C_Gain.v
theories/M_Gain.v
theories/P_Gain.v
theories/P_Gain2.v
theories/S_Gain.v
theories/C_Vgraph.v
theories/M_Vgraph.v
theories/P_Vgraph.v
theories/P_Vgraph2.v
theories/S_Vgraph.v
theories/C_Bgraph.v
theories/M_Bgraph.v
theories/P_Bgraph.v
theories/P_Bgraph2.v
theories/S_Bgraph.v
theories/C_Order.v
theories/M_Order.v
theories/P_Order.v
theories/P_Order2.v
theories/S_Order.v
theories/C_GraphIo.v
theories/M_GraphIo.v
theories/P_GraphIo.v
theories/P_GraphIo2.v
theories/P_GraphIo3.v
theories/P_GraphList2.v
theories/S_GraphIo.v
theories/C_Color.v
theories/M_Color.v
theories/M_Match.v
theories/P_Color.v
theories/P_Match.v
theories/S_Color.v
theories/S_Match.v
theories/C_Match.v
theories/P_Match2.v
theories/C_MatchThr.v
theories/M_Coarsen.v
theories/M_MatchThr.v
theories/P_Coarsen.v
theories/P_MatchThr.v
theories/P_MatchThr2.v
theories/S_Coarsen.v
theories/C_Coarsen.v
theories/P_Coarsen2.v
theories/P_Coarsen3.v
theories/C_Thread.v
theories/M_Thread.v
theories/P_Thread.v
theories/S_Thread.v
theories/C_ThreadRed.v
theories/M_ThreadRed.v
theories/P_ThreadRed.v
theories/P_ThreadRed2.v
theories/P_ThreadRed3.v
theories/S_ThreadRed.v
theories/C_Fibo.v
theories/M_Fibo.v
theories/P_Fibo.v
theories/P_Fibo2.v
theories/P_Fibo3.v
theories/P_Fibo4.v
theories/P_Fibo5.v
theories/P_Fibo6.v
theories/S_Fibo.v
theories/C_ArchLoad.v
theories/C_ArchMatch.v
theories/M_ArchMatch.v
theories/P_ArchMatch.v
theories/P_ArchMatch2.v
theories/P_ArchMatch3.v
theories/P_ArchMatch4.v
theories/S_ArchMatch.v
theories/C_Hgraph.v
theories/C_HgraphOrder.v
theories/M_Hgraph.v
theories/M_HgraphOrder.v
theories/P_Hgraph.v
theories/P_HgraphOrder.v
theories/P_HgraphOrder2.v
theories/P_HgraphOrder3.v
theories/P_HgraphOrder4.v
theories/P_HgraphOrder5.v
theories/S_Hgraph.v
theories/S_HgraphOrder.v
theories/C_VgraphSt.v
theories/M_VgraphSt.v
theories/P_VgraphGp.v
theories/P_VgraphGp2.v
theories/P_VgraphGp3.v
theories/P_VgraphMl.v
theories/P_VgraphMl2.v
theories/P_VgraphSt.v
theories/P_VgraphSt2.v
theories/S_VgraphSt.v
theories/C_KgraphMap.v
theories/M_KgraphMap.v
theories/P_Hash.v
theories/P_KgraphMap.v
theories/P_KgraphMap2.v
theories/P_KgraphMap3.v
theories/P_KgraphMap4.v
theories/S_KgraphMap.v
theories/P_KgraphMap5.v
theories/M_BgraphSt.v
theories/P_BgraphGp.v
theories/P_BgraphMl.v
theories/P_BgraphMl2.v
theories/P_BgraphSt.v
theories/S_BgraphSt.v
theories/C_BgraphSt.v
theories/C_SrcMesh.v
theories/M_Mesh.v
theories/P_MeshBase.v
theories/P_MeshCheck.v
theories/P_MeshGraph.v
theories/P_MeshGraph2.v
theories/P_MeshGraph3.v
theories/P_MeshHash.v
theories/S_Mesh.v
theories/C_MapIo.v
theories/M_MapIo.v
theories/P_MapIo.v
theories/S_MapIo.v
theories/C_Wgraph.v
theories/M_Wgraph.v
theories/P_Wgraph.v
theories/P_WgraphRb.v
theories/P_WgraphRb2.v
theories/P_WgraphSt.v
theories/S_Wgraph.v
theories/C_WgraphMl.v
theories/M_WgraphMl.v
theories/P_WgraphMl.v
theories/P_WgraphMl2.v
theories/S_WgraphMl.v
theories/C_VgraphGg.v
theories/M_VgraphGg.v
theories/P_VgraphGg.v
theories/P_VgraphGg2.v
theories/S_VgraphGg.v
theories/C_BgraphGg.v
theories/M_BgraphGg.v
theories/P_BgraphGg.v
theories/P_BgraphGg2.v
theories/S_BgraphGg.v
theories/C_VgraphFm.v
theories/M_VgraphFm.v
theories/P_VgraphFm.v
theories/P_VgraphFm2.v
theories/P_VgraphFm3.v
theories/P_VgraphFm4.v
theories/S_VgraphFm.v
theories/C_Metis.v
theories/M_Metis.v
theories/P_Metis.v
theories/P_Metis2.v
theories/S_Metis.v
theories/C_MetisDual.v
theories/M_MetisDual.v
theories/P_MetisDual.v
theories/P_MetisDual2.v
theories/S_MetisDual.v
theories/C_HgraphOrderGp.v
theories/M_HgraphOrderGp.v
theories/P_HgraphOrderGp.v
theories/P_HgraphOrderGp2.v
theories/S_HgraphOrderGp.v
theories/C_GraphDiam.v
theories/M_GraphDiam.v
theories/P_GraphDiam.v
theories/S_GraphDiam.v
theories/C_HgraphOrderBl.v
theories/M_HgraphOrderBl.v
theories/P_HgraphOrderBl.v
