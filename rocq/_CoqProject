-Q theories Verif
theories/Py.v
theories/Arith.v
theories/Euclid.v
theories/PySort.v
theories/Heapq.v
theories/Graph.v
theories/Lav.v
theories/Cluster.v
theories/Poly.v
theories/ArithF.v
theories/ArithQ.v
theories/PyFacts.v
theories/SortProofs.v
theories/GraphSpec.v
theories/GraphProofs.v
theories/PropsGraph.v
theories/ArithR.v
theories/PolySpec.v
theories/PolyProofs.v
theories/PolyFaces.v
theories/RSpec.v
theories/PolyR.v
theories/PropsPoly.v
theories/HeapSpec.v
theories/HeapProofs.v
theories/QueueProofs.v
theories/PropsQueue.v
theories/LavSpec.v
theories/LavWalk.v
theories/LavWf.v
theories/LavInit.v
theories/LavNext.v
theories/PropsLav.v
theories/LavRing.v
theories/LavGrow.v
theories/LoopSpec.v
theories/LavLoop.v
theories/LoopStart.v
theories/ClusterSpec.v
theories/GhostProofs.v
theories/MergeProofs.v
theories/MergeExact.v
theories/MergeR.v
theories/GeoSpec.v
theories/GeoR.v
theories/SkeletonFacts.v
theories/SkeletonCases.v
theories/PropsSkeleton.v
theories/RoofFacts.v
theories/PropsRoof.v
theories/GeoLines.v
theories/PropsGeo.v
theories/AngleSpec.v
theories/AngleProofs.v
theories/PropsAngle.v
theories/UnitProofs.v
theories/ShiftProofs.v
theories/PropsEquiv.v
theories/BisSpec.v
theories/BisProofs.v
theories/BisLoop.v
theories/BisInv.v
theories/BisStart.v
theories/BisCases.v
theories/PatSpec.v
theories/PatProofs.v
theories/PatEvents.v
theories/PatCases.v
theories/PropsPat.v
theories/LavStep.v
theories/LavSplit.v
theories/WaveSpec.v
theories/StepSpec.v
theories/LavWave.v
theories/StepProofs.v
theories/StepDormer.v
theories/StepCases.v
theories/PropsStep.v
theories/WaveCases.v
theories/FootSpec.v
theories/FootCases.v
theories/PropsWave.v
theories/PropsBis.v
theories/ConvexSpec.v
theories/ConvexGeo.v
theories/ConvexLoop.v
theories/ConvexCases.v
theories/PropsConvex.v
theories/ConvexWave.v
theories/ConvexMerge.v
theories/ConvexOrder.v
theories/ConvexEnd.v
theories/ConvexStart.v
theories/ConvexSep.v
theories/ConvexRoofCases.v
theories/PropsShrink.v
theories/TriSpec.v
theories/TriSkel.v
theories/TriRoof.v
theories/TriCases.v
theories/PropsTri.v
theories/RoofSpec.v
theories/ConvexComb.v
theories/ConvexStep.v
theories/ConvexTree.v
theories/ConvexPost.v
theories/ConvexFaces.v
theories/ConvexGraph.v
theories/ConvexClean.v
theories/ConvexMove.v
theories/ConvexTile.v
theories/ConvexPoly.v
theories/WholeCases.v
theories/PropsWhole.v
theories/RectSpec.v
theories/RectProofs.v
theories/RectCases.v
theories/PropsRect.v
theories/PyramidSpec.v
theories/PyramidSkel.v
theories/PyramidGraph.v
theories/PyramidPoly.v
theories/SquareProofs.v
theories/PyramidCases.v
theories/PropsPyramid.v
theories/BorderSpec.v
theories/BorderProofs.v
theories/BorderCases.v
theories/PropsBorder.v
theories/SplitSpec.v
theories/SplitProofs.v
theories/SplitCases.v
theories/PropsSplit.v
theories/GhostSpec.v
theories/GhostMoves.v
theories/GhostFacts.v
theories/GhostCases.v
theories/PropsGhost.v
theories/StraightSpec.v
theories/StraightProofs.v
theories/StraightCases.v
theories/PropsStraight.v
theories/EdgeIds.v
theories/SpikeEnd.v
theories/SpikeCases.v
theories/PropsSpikes.v
theories/CleanSpec.v
theories/CleanProofs.v
theories/CleanCases.v
theories/PropsClean.v
theories/TurnSpec.v
theories/SymLav.v
theories/TurnBase.v
theories/TurnCluster.v
theories/TurnRing.v
theories/TurnPoly.v
theories/TurnCases.v
theories/PropsTurn.v
theories/RenumSpec.v
theories/RenumLav.v
theories/RenumProofs.v
theories/RenumPoly.v
theories/RenumCases.v
theories/PropsRenum.v
theories/CwSpec.v
theories/CwGeo.v
theories/CwProofs.v
theories/CwPoly.v
theories/CwCases.v
theories/PropsCw.v
theories/DupSpec.v
theories/DupProofs.v
theories/DupCases.v
theories/PropsDup.v
theories/SameSpec.v
theories/SameRing.v
theories/SameProofs.v
theories/SameCases.v
theories/PropsSame.v
theories/PlanSpec.v
theories/PlanProofs.v
theories/PlanCases.v
theories/PropsPlan.v
theories/SimSpec.v
theories/SimProofs.v
theories/SimCases.v
theories/PropsSim.v
theories/TestSpec.v
theories/TestData.v
theories/TestProofs.v
theories/TestCases.v
theories/PropsTest.v
theories/OrderSpec.v
theories/OrderProofs.v
theories/OrderConvex.v
theories/OrderCases.v
theories/PropsOrder.v
theories/RaiseSpec.v
theories/RaiseProofs.v
theories/RaiseFuel.v
theories/RaiseCases.v
theories/PropsRaise.v
theories/DormSpec.v
theories/DormProofs.v
theories/DormCases.v
theories/PropsDorm.v
