FILES['PropInt'] = ('IntSet (C30)', 'Coq:Sorting.Permutation Base Bits Env EnvFacts Node Iter Tree SetApi MapApi ExtraFacts IntSet IntFacts SpecInt ExampleData',
     [('SpecInt', ['c30'])], {'c30_' + x for x in 'reads empty new with without union intersection where map isSubsetOf equal hash'.split()})
FILES['PropRel'] = ('pkg/rel (C40-C42)', 'Base Bits Env EnvFacts Node Iter Tree TreeFacts SetApi SetFacts MapApi MapFacts GroupFacts Reach Spec SpecSet SpecMap Rel RelFacts RelVal SpecRel ExampleData',
     [('SpecRel', ['c40', 'c41', 'c42'])], {'c40_join', 'c40_joinN', 'c40_returns', 'c42_nest', 'c42_nest_one', 'c42_unnest', 'c42_inverse'})

FILES['PropLazy'] = ('lazy (C35-C39)', 'Base Bits Env EnvFacts Node NodeWf Iter Tree TreeFacts SetApi SetFacts Reach Spec SpecSet Lazy LazyFacts LazyScript SpecLazy ExampleData',
     [('SpecLazy', ['c35', 'c36', 'c37', 'c38', 'c39'])], {'c35_has', 'c35_fastHas'} | {'c36_' + x for x in 'value all once freeze'.split()} |
     {'c37_' + x for x in 'isEmpty fastIsEmpty count fastCount countUpTo fastCountUpTo'.split()} |
     {'c38_' + x for x in 'equalSet equal isSubsetOf hash hash_small'.split()} | {'c39_' + x for x in 'runs ends complete stable'.split()})
FILES['PropConc'] = ('results do not depend on goroutine scheduling (C20)', 'Coq:Sorting.Permutation Base Bits Env EnvFacts Node Iter Tree SetApi MapApi Reach Concurrency ConcOps ConcApi ConcRun SpecConc ExampleData',
     [('SpecConc', ['c20'])], set())
FILES['PropHeap'] = ('builders and sets on the heap (C17, C18)', 'Base Bits Env EnvFacts Node NodeWf NodeAdd Iter Tree SetApi MapApi HeapModel HeapProg HeapProgSim HeapQuiet SpecHeap ExampleData',
     [('SpecHeap', ['c17', 'c18'])], {'c18_' + x for x in 'others no_overwrite no_overwrite_values hash hash_values'.split()})
FILES['PropText'] = ('textual forms (C44-C48)', 'Coq:Strings.String Coq:Strings.Ascii Base Bits Env EnvFacts Node Iter Tree SetApi MapApi IntSet IntFacts ExtraFacts Reach Spec SpecInt Text SpecText SpecShape SpecTextShape ExampleData',
     [('SpecText', ['c44', 'c45', 'c46', 'c47', 'c48']), ('SpecTextShape', ['c47'])], {'c44_debug', 'c44_map_debug', 'c47_same', 'c47_leaves', 'c47_single'})
FILES['PropDyn'] = ('nested values of mixed types (C49, C50)', 'Base Bits Env EnvFacts Node Iter Tree SetApi MapApi Dyn Reach Spec SpecDyn ExampleData',
     [('SpecDyn', ['c49', 'c50'])], {'c50_funcFor'})
FILES['PropIter'] = ('several iterators at once (C51)', 'Base Bits Env EnvFacts Node Iter Tree SetApi Reach Spec IterBuf SpecIter ExampleData',
     [('SpecIter', ['c51'])], set())
FILES['PropShare'] = ('sets used by several goroutines (C52)', 'Base Bits Env EnvFacts Node NodeWf NodeAdd Iter Tree SetApi MapApi HeapModel HeapProg HeapProgSim HeapQuiet HeapWrite HeapSteps HeapShare SpecHeap SpecShare ExampleData PropHeap',
     [('SpecShare', ['c52'])], {'c52_' + x for x in 'others no_overwrite new quiet quiet_ends hash hash_ends hash_values'.split()})
FILES['PropAlloc'] = ('allocation and sharing (C53)', 'Base Bits Env EnvFacts Node Iter Tree SetApi MapApi HeapModel HeapProg HeapAlloc HeapDeep SpecHeap SpecAlloc ExampleData PropHeap',
     [('SpecAlloc', ['c53'])], set())
FILES['PropReduce'] = ('callbacks of Reduce (C54)', 'Coq:Sorting.Permutation Base Bits Env EnvFacts Node NodeWf Iter Tree TreeFacts SetApi MapApi HeapModel HeapProg HeapProgSim HeapQuiet SpecHeap SpecAlloc HeapReduce SpecReduce ExampleData PropHeap',
     [('SpecReduce', ['c54'])], {'c54_' + x for x in 'reads apart order hash'.split()})
FILES['PropCalls'] = ('calls of callbacks (C55)', 'Coq:Sorting.Permutation Base Bits Env EnvFacts Node NodeWf Iter Tree TreeFacts SetApi MapApi GroupFacts Reach IntSet IntFacts Spec SpecSet SpecMap SpecInt Calls CallFacts SpecCalls ExampleData PropInt',
     [('SpecCalls', ['c55'])], set())
FILES['PropVet'] = ('vetting (C56, C59)', 'Base Bits Env EnvFacts Node NodeWf NodeAdd Iter Tree TreeFacts SetApi MapApi MapFacts Reach Vetting HeapModel HeapProg HeapProgSim HeapClone SpecHeap SpecAlloc SpecReduce SpecVet SpecVetWhat ExampleData PropHeap PropAlloc',
     [('SpecVet', ['c56']), ('SpecVetWhat', ['c56', 'c59'])], set())
FILES['PropNodeMap'] = ('the Map method of nodes (C57)', 'Base Bits Env EnvFacts Node NodeWf NodeAdd Iter Tree TreeFacts SetApi MapApi Reach Spec NodeMap HeapProg SpecHeap SpecNodeMap ExampleData PropHeap',
     [('SpecNodeMap', ['c57'])], {'c57_images', 'c57_map', 'c57_returns'})
FILES['PropCost'] = ('calls of hash and equality (C58)', 'Base Bits Env EnvFacts Node NodeWf Iter Tree TreeFacts SetApi MapApi MapFacts Reach Spec SpecSet SpecMap Cost CostFacts CostBin SpecCost ExampleData',
     [('SpecCost', ['c58'])], set())
FILES['PropHasher'] = ('the text of a hasher (C60)', 'Base Bits Env EnvFacts HasherText SpecHasher ExampleData',
     [('SpecHasher', ['c60'])], {'c60_text', 'c60_injective'})
FILES['PropBulk'] = ('allocation and sharing of operations on whole sets (C61)', 'Base Bits Env EnvFacts Node NodeAdd Iter Tree TreeFacts SetApi MapApi HeapModel HeapProg HeapProgSim HeapAlloc HeapDeep SpecHeap SpecAlloc SpecBulk ExampleData PropHeap PropAlloc',
     [('SpecBulk', ['c61'])], set())
FILES['PropTest'] = ('helpers of the tests (C62, C63)', 'Coq:Sorting.Permutation Base Bits Env EnvFacts Node NodeWf NodeBin2 Iter Tree TreeFacts SetApi SetFacts MapApi Reach TestSupport SpecTest ExampleData',
     [('SpecTest', ['c62', 'c63'])], {'c62_strings_ascending', 'c63_polite'})
FILES['PropShape'] = ('the shape of tries (C64)', 'Coq:Sorting.Permutation Base Bits Env EnvFacts Node NodeWf Iter Tree TreeFacts SetApi SetFacts MapApi MapFacts Reach Spec SpecSet SpecShape ExampleData',
     [('SpecShape', ['c64'])], set())
FILES['PropLaws'] = ('laws of set algebra and of updates (C65)', 'Base Bits Env EnvFacts Node Iter Tree SetApi MapApi Reach Spec SpecLaws ExampleData',
     [('SpecLaws', ['c65'])], set())
FILES['PropAsserts'] = ('assertions of the tests (C66)', 'Base Asserts SpecAsserts', [('SpecAsserts', ['c66'])], {'c66_panic', 'c66_noPanic'})
FILES['PropClient'] = ('programs that use sets and maps (C67)', 'Base Bits Env EnvFacts Node Iter Tree SetApi MapApi Reach Spec SpecLaws SpecClient ExampleData',
     [('SpecClient', ['c67'])], set())
FILES['PropRep'] = ('which of several equal elements or keys is kept (C68)', 'Base Bits Env EnvFacts Node Iter Tree SetApi MapApi Reach Spec SpecRep ExampleData',
     [('SpecRep', ['c68'])], {'c68_intersection', 'c68_intersection_two', 'c68_intersection_swap'})
FILES['PropRead'] = ('questions and iterators on shared memory (C69)', 'Base Bits Env EnvFacts Node NodeWf NodeAdd Iter Tree SetApi MapApi HeapModel HeapProg HeapProgSim HeapRead HeapReadSim SpecHeap SpecRead ExampleData PropHeap',
     [('SpecRead', ['c69'])], {'c69_values', 'c69_hash', 'c69_builders', 'c69_loop_values', 'c69_loop_hash', 'c69_loop_builders'})
FILES['PropGo'] = ('the goroutines an operation starts (C70)', 'Coq:Strings.Ascii Coq:Strings.String Coq:Sorting.Permutation Base Bits Env EnvFacts Node Iter Tree SetApi MapApi Reach Concurrency ConcOps ConcApi ConcRun Goroutines GoOps GoRun Config SpecConc SpecGo SpecVar ExampleData',
     [('SpecGo', ['c70']), ('SpecVar', ['c70'])], set())
FILES['PropRace'] = ('data races between the goroutines of an operation (C71)', 'Coq:Strings.String Coq:Sorting.Permutation Base Bits Env EnvFacts Node Iter Tree SetApi MapApi Reach Concurrency ConcOps ConcApi ConcRun Goroutines GoOps GoRun Config SpecConc Races SpecRace ExampleData',
     [('SpecRace', ['c71'])], {'c71_union', 'c71_symmetricDifference', 'c71_merge', 'c71_update'})
FILES['PropFast'] = ('the Fast methods of lazy sets (C72)', 'Base Bits Env EnvFacts Node NodeWf Iter Tree SetApi Reach Spec Lazy LazyFacts LazyCost SpecFast ExampleData PropLazy',
     [('SpecFast', ['c72'])], {'c72_fastCountUpTo', 'c72_fastCountUpTo_run', 'c72_fastCountUpTo_functions', 'c72_fastHas', 'c72_fastHas_run', 'c72_fastHas_known', 'c72_fastHas_flat'})
FILES['PropMemo'] = ('which calls memoise a lazy set (C73)', 'Base Bits Env EnvFacts Node Iter Tree SetApi Lazy LazyCost SpecMemo ExampleData PropLazy',
     [('SpecMemo', ['c73'])], {'c73_range'})
FILES['PropBuild'] = ('making lazy sets evaluates nothing (C74)', 'Base Bits Env EnvFacts Node Iter Tree SetApi Lazy LazyCost SpecBuild ExampleData PropLazy',
     [('SpecBuild', ['c74'])], {'c74_map', 'c74_map_memo'})
FILES['PropMapLaws'] = ('the laws of map algebra (C75)', 'Base Bits Env EnvFacts Node Iter Tree SetApi MapApi Reach Spec SpecMapLaws ExampleData PropMap',
     [('SpecMapLaws', ['c75'])], set())
FILES['PropRound'] = ('there and back (C76)', 'Base Bits Env EnvFacts Node Iter Tree SetApi MapApi Ordered Reach Spec SpecRound ExampleData',
     [('SpecRound', ['c76'])], set())
FILES['PropTally'] = ('how many elements results have (C77)', 'Base Bits Env EnvFacts Node Iter Tree SetApi MapApi Reach Spec SpecLaws SpecTally ExampleData PropLaws',
     [('SpecTally', ['c77'])], set())
FILES['PropIntSet'] = ('IntSet against Set (C78)', 'Coq:Sorting.Permutation Base Bits Env EnvFacts Node Iter Tree SetApi MapApi ExtraFacts IntSet IntFacts Reach Spec SpecInt SpecIntSet ExampleData PropInt',
     [('SpecIntSet', ['c78'])], {'c78_agree', 'c78_compare', 'c78_total'})
FILES['PropKeys'] = ('maps against the sets of their keys (C79)', 'Base Bits Env EnvFacts Node Iter Tree SetApi MapApi Reach Spec SpecMapLaws SpecKeys ExampleData PropMapLaws',
     [('SpecKeys', ['c79'])], set())
FILES['PropImage'] = ('the laws of SetMap (C80)', 'Base Bits Env EnvFacts Node Iter Tree SetApi MapApi Reach Spec SpecLaws SpecImage ExampleData',
     [('SpecImage', ['c80'])], set())
FILES['PropNary'] = ('the functions Union and Intersection (C81)', 'Base Bits Env EnvFacts Node Iter Tree SetApi MapApi Reach Spec SpecNary ExampleData',
     [('SpecNary', ['c81'])], set())
FILES['PropGroups'] = ('the laws of SetGroupBy (C82)', 'Base Bits Env EnvFacts Node Iter Tree SetApi MapApi Reach Spec SpecGroups ExampleData',
     [('SpecGroups', ['c82'])], set())
