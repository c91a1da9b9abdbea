-Q theories Verif
theories/Base.v
theories/Bits.v
theories/Env.v
theories/EnvFacts.v
theories/Node.v
theories/NodeWf.v
theories/NodeAdd.v
theories/NodeRemove.v
theories/NodeBin.v
theories/NodeBin2.v
theories/NodeUn.v
theories/Iter.v
theories/Tree.v
theories/TreeFacts.v
theories/SetApi.v
theories/SetFacts.v
theories/GoHeap.v
theories/Ordered.v
theories/BitFacts.v
theories/PowersetFacts.v
theories/ExtraFacts.v
theories/Lazy.v
theories/LazyLists.v
theories/LazyFacts.v
theories/LazyOps.v
theories/LazyOps2.v
theories/LazyWeak.v
theories/LazyRun.v
theories/MapApi.v
theories/MapFacts.v
theories/GroupFacts.v
theories/IntSet.v
theories/IntFacts.v
theories/Rel.v
theories/RelFacts.v
theories/RelVal.v
theories/Dyn.v
theories/Clash.v
theories/Reach.v
theories/Spec.v
theories/SpecSet.v
theories/SpecMap.v
theories/SpecBits.v
theories/SpecInt.v
theories/SpecRel.v
theories/LazyScript.v
theories/SpecLazy.v
theories/SpecDyn.v
theories/IterBuf.v
theories/SpecIter.v
theories/Concurrency.v
theories/ConcOps.v
theories/ConcApi.v
theories/ConcRun.v
theories/SpecConc.v
theories/HeapModel.v
theories/HeapFrame.v
theories/HeapOwn.v
theories/HeapRep.v
theories/HeapSim.v
theories/HeapSim2.v
theories/HeapProg.v
theories/HeapProgSim.v
theories/HeapBuilders.v
theories/HeapQuiet.v
theories/HeapWrite.v
theories/HeapSteps.v
theories/HeapShare.v
theories/HeapAlloc.v
theories/HeapDeep.v
theories/HeapReduce.v
theories/SpecHeap.v
theories/SpecShare.v
theories/SpecAlloc.v
theories/SpecReduce.v
theories/Text.v
theories/SpecText.v
theories/HasherText.v
theories/SpecHasher.v
theories/ExampleData.v
theories/PropSet.v
theories/PropMap.v
theories/PropBits.v
theories/PropPanic.v
theories/PropInt.v
theories/PropRel.v
theories/PropLazy.v
theories/PropConc.v
theories/PropHeap.v
theories/PropShare.v
theories/PropAlloc.v
theories/PropReduce.v
theories/PropDyn.v
theories/PropIter.v
theories/Upstream.v
theories/Calls.v
theories/CallFacts.v
theories/SpecCalls.v
theories/PropCalls.v
theories/Vetting.v
theories/HeapClone.v
theories/SpecVet.v
theories/SpecVetWhat.v
theories/PropVet.v
theories/NodeMap.v
theories/SpecNodeMap.v
theories/PropNodeMap.v
theories/Cost.v
theories/CostFacts.v
theories/CostBin.v
theories/CostAsk.v
theories/SpecCost.v
theories/PropCost.v
theories/PropHasher.v
theories/HeapBulk.v
theories/SpecBulk.v
theories/PropBulk.v
theories/TestSupport.v
theories/SpecTest.v
theories/PropTest.v
theories/SpecShape.v
theories/PropShape.v
theories/SpecLaws.v
theories/PropLaws.v
theories/Asserts.v
theories/SpecAsserts.v
theories/SpecClient.v
theories/PropAsserts.v
theories/PropClient.v
theories/SpecTextShape.v
theories/PropText.v
theories/NodeRep.v
theories/SpecRep.v
theories/PropRep.v
theories/HeapRead.v
theories/HeapReadSim.v
theories/SpecRead.v
theories/PropRead.v
theories/Goroutines.v
theories/GoOps.v
theories/GoRun.v
theories/Config.v
theories/SpecGo.v
theories/SpecVar.v
theories/PropGo.v
theories/Races.v
theories/SpecRace.v
theories/PropRace.v
theories/LazyCost.v
theories/SpecFast.v
theories/SpecMemo.v
theories/SpecBuild.v
theories/SpecMapLaws.v
theories/PropFast.v
theories/PropMemo.v
theories/PropBuild.v
theories/PropMapLaws.v
theories/SpecRound.v
theories/PropRound.v
theories/SpecTally.v
theories/PropTally.v
theories/SpecIntSet.v
theories/PropIntSet.v
theories/SpecKeys.v
theories/PropKeys.v
theories/SpecImage.v
theories/PropImage.v
theories/SpecNary.v
theories/PropNary.v
theories/SpecGroups.v
theories/PropGroups.v
