-Q theories Verif

theories/Base.v
theories/Interleave.v
theories/Spec.v
theories/Search.v
theories/Partition.v
theories/PrefixSum.v
theories/PermUtils.v
theories/PropsUtils.v
theories/Barrier.v
theories/Reduce.v
theories/ReduceProof.v
theories/PropsBarrier.v
theories/InitSkel.v
theories/BarrierInit.v
theories/ReduceInit.v
theories/PropsInit.v
theories/MemoryPool.v
theories/PropsPool.v
theories/Flat.v
theories/CountSort.v
theories/Csr.v
theories/Transpose.v
theories/PropsTranspose.v
theories/CsrTools.v
theories/CsrOps.v
theories/PropsCsr.v
theories/Sort.v
theories/RowPar.v
theories/Coo.v
theories/PropsCoo.v
theories/Fill.v
theories/Permute.v
theories/PermuteMain.v
theories/PermuteCols.v
theories/PermuteFacts.v
theories/PropsPermute.v
theories/SpMV.v
theories/PropsSpMV.v
theories/SplitLU.v
theories/PropsSplit.v
theories/P2P.v
theories/P2PProg.v
theories/Phased.v
theories/Exec.v
theories/Kernels.v
theories/Ilu.v
theories/Levels.v
theories/LevelsFacts.v
theories/LevelsMain.v
theories/Tasks.v
theories/LevelsCsr.v
theories/PropsLevels.v
theories/TaskGraph.v
theories/TaskGraphFacts.v
theories/TaskGraphLists.v
theories/TaskGraphMain.v
theories/TaskGraphOrder.v
theories/TaskGraphCsr.v
theories/Sched.v
theories/SchedPerm.v
theories/SchedCases.v
theories/Solve.v
theories/IluExact.v
theories/SolveCases.v
theories/PropsSolve.v
theories/Pcg.v
theories/PcgTri.v
theories/PcgMain.v
theories/PcgExact.v
theories/PcgCases.v
theories/PropsPcg.v
theories/PropsGraph.v
theories/PropsExec.v
theories/Fused.v
theories/FusedWaits.v
theories/PropsFused.v
theories/UnionFind.v
theories/Components.v
theories/UnionFresh.v
theories/SymPattern.v
theories/PropsSym.v
theories/BinIO.v
theories/PropsBin.v
theories/Laplacian.v
theories/PropsLaplacian.v
theories/BitVector.v
theories/ComponentsBv.v
theories/ComponentsDebug.v
theories/PropsComponents.v
theories/Bfs.v
theories/ParBfs.v
theories/Rcm.v
theories/BfsPerm.v
theories/BfsPermWhole.v
theories/BiBfs.v
theories/RcmPipe.v
theories/RcmSource.v
theories/RcmLarge.v
theories/RcmWhole.v
theories/PropsReorder.v
theories/PropsBiBfs.v
theories/PropsPipe.v
theories/PropsSource.v
theories/PropsLarge.v
theories/MmText.v
theories/MmIo.v
theories/MmLoad.v
theories/MmSym.v
theories/MmVec.v
theories/MmCases.v
theories/MmStore.v
theories/MmFloat.v
theories/MmRound.v
theories/MmTrip.v
theories/MmCrd.v
theories/PropsMm.v
theories/PropsMmStore.v
theories/MmRead.v
theories/PropsMmRead.v
theories/Ownership.v
theories/OwnSched.v
theories/PropsOwn.v
theories/Sgs.v
theories/SgsExact.v
theories/SgsCases.v
theories/PropsSgs.v
theories/Convert.v
theories/PropsConvert.v
theories/Width.v
theories/PropsWidth.v
theories/SchedShort.v
theories/PropsShort.v
theories/UnionSome.v
theories/ReorderSome.v
theories/PropsSome.v
theories/FromFile.v
theories/FromFileCases.v
theories/PropsFromFile.v
theories/Check.v
theories/CheckCases.v
theories/PropsCheck.v
theories/OnePerm.v
theories/TestProg.v
theories/TestProgCases.v
theories/PropsTestProg.v
theories/Products.v
theories/ReorderTest.v
theories/ProductsCases.v
theories/PropsProducts.v
theories/Instance.v
theories/PropsInstance.v
theories/WaitExec.v
theories/WaitCases.v
theories/PropsWait.v
theories/IntSize.v
theories/PropsInt.v
theories/PcgProg.v
theories/PcgProgCases.v
theories/PropsPcgProg.v
theories/PoolLife.v
theories/PropsPoolLife.v
theories/LoadImba.v
theories/LoadImbaRun.v
theories/PropsLoadImba.v
