-Q theories Verif
theories/Quad.v
theories/Spec.v
theories/Morton.v
theories/ZBits.v
theories/Interval.v
theories/QuadLemmas.v
theories/CompareLemmas.v
theories/IdLemmas.v
theories/DescLemmas.v
theories/SuccLemmas.v
theories/Tree.v
theories/TreeLemmas.v
theories/PropertiesBits.v
theories/Neighbor.v
theories/PropertiesNeighbor.v
theories/Transform.v
theories/PropertiesTransform.v
theories/Search.v
theories/SearchLemmas.v
theories/SearchLocal.v
theories/SearchPure.v
theories/PropertiesSearch.v
theories/Adapt.v
theories/AdaptSpec.v
theories/ListLemmas.v
theories/RefineLemmas.v
theories/Tiles.v
theories/RefineProps.v
theories/PropertiesRefine.v
theories/CoarsenLemmas.v
theories/CoarsenGeo.v
theories/CoarsenProps.v
theories/CoarsenFix.v
theories/PropertiesCoarsen.v
theories/Cut.v
theories/CutLemmas.v
theories/PropertiesCut.v
theories/Partition.v
theories/PartLemmas.v
theories/PartTrees.v
theories/PartRecv.v
theories/PartGlue.v
theories/PartFinal.v
theories/Comm.v
theories/CommLemmas.v
theories/PartShip.v
theories/PropertiesPartition.v
theories/OwnerLemmas.v
theories/PropertiesOwner.v
theories/Transfer.v
theories/TransferLemmas.v
theories/PropertiesTransfer.v
theories/Pertree.v
theories/PertreeLemmas.v
theories/PropertiesPertree.v
theories/Weighted.v
theories/WeightedLemmas.v
theories/PropertiesWeighted.v
theories/Complete.v
theories/RegionLemmas.v
theories/PropertiesRegion.v
theories/Forest.v
theories/ForestSpec.v
theories/ForestLemmas.v
theories/ForestAdapt.v
theories/ForestPart.v
theories/ForestOps.v
theories/ForestNew.v
theories/PropertiesForest.v
theories/PartCoarse.v
theories/PartCoarseLemmas.v
theories/PartCoarseMsg.v
theories/PartCoarseFam.v
theories/PartCoarseCorr.v
theories/PartCoarseAll.v
theories/PropertiesPartCoarse.v
theories/Conn.v
theories/ConnLemmas.v
theories/ConnBounds.v
theories/PropertiesConn.v
theories/Bytes.v
theories/ConnIO.v
theories/ConnIOLemmas.v
theories/PropertiesConnIO.v
theories/Inflate.v
theories/InflateLemmas.v
theories/PropertiesInflate.v
theories/Valid.v
theories/ValidLemmas.v
theories/PropertiesValid.v
theories/SaveLoad.v
theories/SaveLoadLemmas.v
theories/SaveFile.v
theories/PropertiesSave.v
theories/Checksum.v
theories/PropertiesChecksum.v
theories/Wrap.v
theories/RankWalk.v
theories/WrapLemmas.v
theories/WrapSqueeze.v
theories/WrapRank.v
theories/WrapForest.v
theories/PropertiesWrap.v
theories/Balance.v
theories/BalanceBasics.v
theories/BalanceFill.v
theories/BalanceComplete.v
theories/BalanceMerge.v
theories/PropertiesComplete.v
theories/Enlarge.v
theories/Build.v
theories/BuildTree.v
theories/BuildRank.v
theories/PropertiesBuild.v
theories/BalanceGeom.v
theories/BalanceHood.v
theories/BalanceState.v
theories/BalanceClosed.v
theories/BalanceKernel.v
theories/PropertiesBalance.v
theories/PartSearch.v
theories/PartSearchLemmas.v
theories/PartSearchRun.v
theories/PropertiesPartSearch.v
theories/RangeBound.v
theories/RangeBoundLemmas.v
theories/PropertiesRangeBound.v
theories/Ghost.v
theories/GhostSpec.v
theories/GhostGeom.v
theories/GhostState.v
theories/GhostTest.v
theories/GhostOut.v
theories/GhostSteps.v
theories/GhostQuad.v
theories/GhostLoop.v
theories/GhostForest.v
theories/PropertiesGhost.v
theories/GhostSym.v
theories/GhostCells.v
theories/GhostTouch.v
theories/PropertiesGhostExchange.v
theories/GhostFind.v
theories/PropertiesGhostFind.v
theories/PropertiesGhostExists.v
theories/GhostData.v
theories/GhostDataLemmas.v
theories/PropertiesGhostData.v
theories/Balanced.v
theories/BalancedSpec.v
theories/BalancedGeom.v
theories/BalancedImage.v
theories/BalancedCore.v
theories/BalancedSend.v
theories/BalancedLeaf.v
theories/PropertiesBalanced.v
theories/Reorder.v
theories/ReorderSpec.v
theories/ReorderLemmas.v
theories/ReorderRun.v
theories/PropertiesReorder.v
theories/Canon.v
theories/CanonLemmas.v
theories/CanonRun.v
theories/CanonConn.v
theories/CanonEdge.v
theories/PropertiesCanon.v
theories/Permute.v
theories/PermuteLemmas.v
theories/PermuteArray.v
theories/PropertiesPermute.v
theories/Brick.v
theories/BrickBits.v
theories/BrickNumber.v
theories/BrickWrite.v
theories/BrickVertex.v
theories/BrickValid.v
theories/PropertiesBrick.v
theories/ConnComplete.v
theories/ConnCompleteArray.v
theories/ConnCompleteFaces.v
theories/ConnCompleteGroups.v
theories/ConnCompleteValid.v
theories/ConnCompleteEdges.v
theories/ConnCompleteCorners.v
theories/ConnCompleteMeaning.v
theories/PropertiesConnComplete.v
theories/Join.v
theories/JoinArray.v
theories/JoinCorners.v
theories/JoinFaces.v
theories/PropertiesJoin.v
theories/Equiv.v
theories/PropertiesEquiv.v
theories/PropertiesEquivJoin.v
theories/Node.v
theories/PropertiesNode.v
theories/NtQuad.v
theories/PropertiesNtQuad.v
theories/NtQuadFace.v
theories/PropertiesNtQuadFace.v
