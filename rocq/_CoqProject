-Q theories Verif
theories/Base.v
theories/Spec.v
theories/M_Graph.v
theories/M_Iterators.v
theories/M_EditGraph.v
theories/S_Graph.v
theories/S_Multi.v
theories/P_EditGraph.v
theories/P_EditGraph2.v
theories/P_Graph.v
theories/P_Iterators.v
theories/P_Adds.v
theories/P_Generators.v
theories/P_Unions.v
theories/T_EditGraph.v
theories/M_EditDigraph.v
theories/S_Digraph.v
theories/P_EditDigraph.v
theories/P_EditDigraph2.v
theories/T_EditDigraph.v
theories/M_Algorithms.v
theories/P_Components.v
theories/P_Degeneracy.v
theories/P_Multi.v
theories/P_Bipartite.v
theories/T_Algorithms.v
theories/M_Operations.v
theories/P_Operations.v
theories/P_Twin.v
theories/P_Subdivide.v
theories/T_Operations.v
theories/M_OrdGraph.v
theories/S_Linear.v
theories/P_OrdGraph.v
theories/P_OrdGraph2.v
theories/T_OrdGraph.v
theories/M_DegenGraph.v
theories/P_Packed.v
theories/P_DegenGraph.v
theories/P_DegenGraph2.v
theories/P_Normalize.v
theories/T_DegenGraph.v
theories/M_Linear.v
theories/S_Reach.v
theories/P_Linear.v
theories/P_Linear2.v
theories/S_Cliques.v
theories/P_Cliques.v
theories/Examples.v
theories/T_Linear.v
theories/M_ReachGraph.v
theories/P_ReachGraph.v
theories/T_ReachGraph.v
theories/M_Colouring.v
theories/P_Colouring.v
theories/T_Colouring.v
theories/P_Greedy.v
theories/M_Domset.v
theories/P_Wdist.v
theories/P_Domset.v
theories/P_Conflict.v
theories/P_Scattered.v
theories/P_Approx.v
theories/T_Domset.v
theories/T_Approx.v
theories/M_DTF.v
theories/P_DTF.v
theories/S_DTF.v
theories/P_DTF2.v
theories/P_DTF3.v
theories/P_DTF4.v
theories/P_DTF5.v
theories/P_DTF6.v
theories/P_DTFApprox.v
theories/P_DTFReason.v
theories/T_DTF.v
theories/M_Trace.v
theories/P_Trace.v
theories/P_Trace2.v
theories/P_Trace3.v
theories/P_Trace4.v
theories/T_Trace.v
theories/M_IO.v
theories/S_IO.v
theories/P_IO.v
theories/T_IO.v
theories/M_File.v
theories/S_File.v
theories/P_File.v
theories/T_File.v
theories/P_Loops.v
theories/P_Loops2.v
theories/T_Loops.v
theories/P_Determin.v
theories/T_Determin.v
theories/T_ReachAlg.v
theories/P_ReachRel.v
theories/T_ReachRel.v
theories/T_EndToEnd.v
theories/P_Determin2.v
theories/T_Determin2.v
theories/P_Certify.v
theories/T_Certify.v
theories/M_Write.v
theories/P_Write.v
theories/T_Write.v
theories/P_Cliques2.v
theories/T_Cliques.v
theories/P_Iso.v
theories/T_Iso.v
theories/P_IsoLin.v
theories/T_IsoLin.v
theories/T_Laws.v
theories/P_Compose.v
theories/T_Generated.v
theories/T_Compose.v
theories/T_DiAlgos.v
theories/T_DiBuild.v
theories/M_DTFView.v
theories/T_DTFView.v
theories/M_Neighbourhoods.v
theories/T_Neighbourhoods.v
theories/M_ColourMap.v
theories/T_ColourMap.v
theories/T_IsoDi.v
theories/T_DTFExact.v
theories/T_DTFApprox.v
theories/R_Tests.v
theories/P_Shatter.v
theories/T_Shatter.v
theories/P_Families.v
theories/T_Families.v
theories/P_Edits.v
theories/T_Edits.v
theories/P_Counts.v
theories/T_Counts.v
theories/T_Compose2.v
theories/P_Forest.v
theories/T_Relations.v
theories/T_Distances.v
theories/T_Saved.v
theories/T_Contract.v
