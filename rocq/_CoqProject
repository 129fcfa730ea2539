-Q theories Verif
theories/Base.v
theories/Num.v
theories/RSum.v
theories/Sparse.v
theories/SparseFacts.v
theories/Graph.v
theories/GraphSpec.v
theories/GraphFacts.v
theories/GraphProps1.v
theories/GraphProps2.v
theories/GraphProps3.v
theories/GraphProps4.v
theories/GraphProps5.v
theories/GraphExamples.v
theories/Props_Graph.v
theories/Cluster.v
theories/ClusterCC.v
theories/ClusterSpec.v
theories/ClusterPR.v
theories/ClusterPR2.v
theories/ClusterSweep.v
theories/ClusterInst.v
theories/Ppr.v
theories/ClusterTop.v
theories/ClusterVol.v
theories/Metrics.v
theories/MetricsFacts.v
theories/MetricsFacts2.v
theories/ClusterExamples.v
theories/Props_Cluster.v
theories/Mixing.v
theories/AclQuality.v
theories/Props_Acl.v
theories/Text.v
theories/TextFacts.v
theories/GraphIO.v
theories/IOSpec.v
theories/GraphIOFacts.v
theories/GraphIOLoad.v
theories/GraphIOAdj.v
theories/GraphIOSort.v
theories/GraphIOConv.v
theories/GraphIOBack.v
theories/GraphIOBad.v
theories/TextQc.v
theories/IOExamples.v
theories/Props_IO.v
theories/LocalDisk.v
theories/LocalDiskFacts.v
theories/LocalDiskSearch.v
theories/LocalDiskTop.v
theories/Props_Disk.v
theories/RandomGraph.v
theories/RandomFacts.v
theories/RandomTop.v
theories/RandomTop2.v
theories/FloorDiv.v
theories/Props_Random.v
theories/ThreadPool.v
theories/ThreadPoolFacts.v
theories/ThreadPoolTop.v
theories/Props_Pool.v
theories/Kde.v
theories/KdeFacts.v
theories/KdeFacts2.v
theories/KdeFacts3.v
theories/KdeFacts4.v
theories/Props_Kde.v
theories/KdeAcc1.v
theories/KdeAcc2.v
theories/KdeAcc3.v
theories/KdeAcc4.v
theories/KdeAcc5.v
theories/KdeAcc6.v
theories/KdeAcc7.v
theories/Props_KdeAccuracy.v
theories/SimGraph.v
theories/SimGraphFacts.v
theories/SimGraphFacts2.v
theories/SimGraphFacts3.v
theories/SimGraphFacts4.v
theories/SimGraphTop.v
theories/Props_Sim.v
theories/Data.v
theories/DataFacts.v
theories/Props_Data.v
theories/Spectrum.v
theories/SpectrumSpec.v
theories/SpectrumFacts.v
theories/SpectrumPower.v
theories/SpectrumConv.v
theories/SpectrumExamples.v
theories/Props_Spectrum.v
theories/KMeans.v
theories/KMeansFacts.v
theories/KMeansSpec.v
theories/KMeansLloyd.v
theories/KMeansTop.v
theories/KMeansExamples.v
theories/MTFacts.v
theories/Props_SpectralCluster.v
theories/Cheeger.v
theories/CheegerFacts.v
theories/CheegerMath.v
theories/CheegerSpectral.v
theories/CheegerTop.v
theories/CheegerIneq.v
theories/CheegerExamples.v
theories/Props_Cheeger.v
theories/LshProb.v
theories/LshProbFacts.v
theories/LshProbTop.v
theories/LshOffset.v
theories/LshParams.v
theories/LshParamsFacts.v
theories/Props_Lsh.v
theories/SimExpect.v
theories/Props_SimExpect.v
theories/FloatFacts.v
theories/GraphFloat.v
theories/Props_Float.v
theories/PageRankFloat.v
theories/PageRankFloat2.v
theories/Props_PageRankFloat.v
theories/SweepFloat.v
theories/SweepFloat2.v
theories/Props_SweepFloat.v
theories/TextF64.v
theories/TextF64Facts.v
theories/TextF64Top.v
theories/TextF64Read.v
theories/TextF64Graph.v
theories/Props_TextF64.v
theories/RandomCount.v
theories/Props_RandomCount.v
theories/RandomDist.v
theories/Props_RandomDist.v
theories/FileSys.v
theories/FileSysFacts.v
theories/FileSysTop.v
theories/FileSysSort.v
theories/FileSysMore.v
theories/Tools.v
theories/Props_FileSys.v
theories/Props_FileSys2.v
theories/Props_Tools.v
theories/Threads.v
theories/ThreadsFacts.v
theories/AsgThreads.v
theories/AsgThreadsFacts.v
theories/AsgThreadsTop.v
theories/KdeThreads.v
theories/KdeThreadsTop.v
theories/Props_Threads.v
theories/KdeLife.v
theories/KdeLifeFacts.v
theories/KdeLifeTop.v
theories/KdeLifeMore.v
theories/Props_KdeLife.v
theories/RecoverMath.v
theories/RecoverKM.v
theories/RecoverTop.v
theories/RecoverExamples.v
theories/RecoverBad.v
theories/Props_Recover.v
theories/CheegerComp.v
theories/Props_CheegerComp.v
theories/KdeFloat.v
theories/AsgFloat.v
theories/LibmF64.v
theories/Props_KdeFloat.v
theories/MatFloat.v
theories/Props_MatFloat.v
theories/GraphThreads.v
theories/GraphThreadsTop.v
theories/Props_GraphThreads.v
theories/KppMath.v
theories/Kpp.v
theories/KppTop.v
theories/Props_Kpp.v
theories/PartMath.v
theories/SpecQual.v
theories/Props_SpecQual.v
theories/CheegerInexact.v
theories/SpecInexact.v
theories/Props_Inexact.v
theories/AsgLaw.v
theories/AsgConc.v
theories/AsgCut.v
theories/Props_AsgConc.v
theories/RandomConc.v
theories/RandomCuts.v
theories/RandomConn.v
theories/Props_RandomConc.v
theories/InnerMath.v
theories/InnerCond.v
theories/Props_InnerCond.v
theories/PlantedDet.v
theories/PlantedProb.v
theories/Props_Planted.v
theories/RandomPhi.v
theories/Props_RandomPhi.v
theories/RandIndex.v
theories/Props_RandIndex.v
theories/AriFloat.v
theories/Props_AriFloat.v
theories/SpectrumGap.v
theories/Props_SpectrumGap.v
