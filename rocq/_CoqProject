-Q theories Verif
theories/Base.v
theories/Ops.v
theories/Chain.v
theories/LinearChain.v
theories/Terms.v
theories/Poly.v
theories/SemiMarkov.v
theories/CkyCrf.v
theories/Cky.v
theories/DepSpec.v
theories/DepTree.v
theories/Batch.v
theories/Family.v
theories/Semirings.v
theories/Approx.v
theories/Grad.v
theories/Sample.v
theories/MatTree.v
theories/RField.v
theories/NpSpec.v
theories/MxR.v
theories/NonProj.v
theories/Dist.v
theories/Purity.v
theories/Degree.v
theories/Shape.v
theories/Dag.v
theories/DagLaw.v
theories/KMax.v
theories/Laws.v
theories/Tensor.v
theories/Fast.v
theories/Codec.v
theories/CkyCodec.v
theories/Networkx.v
theories/Adapters.v
theories/Sparse.v
theories/AutoReg.v
theories/LcMax.v
theories/Api.v
theories/Query.v
theories/Mask.v
theories/Learn.v
theories/Shard.v
theories/History.v
theories/Gumbel.v
theories/Align.v
theories/Instances.v
theories/Round.v
theories/Size.v
theories/Machine.v
theories/P_Structures.v
theories/P_Real.v
theories/P_Sample.v
theories/P_KMax.v
theories/P_Laws.v
theories/P_Codec.v
theories/P_Adapt.v
theories/P_Count.v
theories/P_Sparse.v
theories/P_NonProj.v
theories/P_AutoReg.v
theories/P_History.v
theories/P_Gumbel.v
theories/P_Align.v
theories/P_Learn.v
theories/P_Mask.v
theories/P_Shard.v
theories/P_Graph.v
theories/P_Cross.v
theories/P_Round.v
theories/P_Float.v
theories/Oracle.v
theories/OracleSpec.v
theories/P_Oracle.v
theories/Sym.v
theories/SymMaps.v
theories/P_Sym.v
theories/Grammar.v
theories/P_Grammar.v
theories/Train.v
theories/P_Train.v
theories/Reinforce.v
theories/P_Reinforce.v
theories/Straight.v
theories/P_Straight.v
theories/SparseMarg.v
theories/P_SparseMarg.v
theories/LogProb.v
theories/P_LogProb.v
theories/P_Depth.v
theories/ListOps.v
theories/P_ListOps.v
theories/TreeLstm.v
theories/P_TreeLstm.v
theories/Subword.v
theories/P_Subword.v
theories/SpanLstm.v
theories/P_SpanLstm.v
theories/Pair.v
theories/P_Pair.v
theories/P_EntGrad.v
theories/Validate.v
theories/P_Validate.v
theories/P_RoundLp.v
theories/NbSplit.v
theories/P_NbSplit.v
theories/Effects.v
theories/P_Effects.v
theories/Spans.v
theories/P_Spans.v
theories/Special.v
theories/P_Special.v
theories/MaskGrad.v
theories/P_MaskGrad.v
theories/P_MaskSample.v
theories/MaskKMax.v
theories/P_MaskKMax.v
theories/MaskDep.v
theories/P_MaskDep.v
theories/P_MaskCfg.v
theories/P_MaskNp.v
theories/P_NpSym.v
theories/P_MaskHmm.v
theories/P_MaskAr.v
theories/P_Local.v
theories/P_MaskLocal.v
theories/P_Temp.v
theories/P_Partial.v
theories/P_Classes.v
theories/P_Markov.v
