{"id": "C01", "title": "Set.With / Set.Without / Set.Has laws", "statement": "For every Set s obtained from the API and all values v, w: s.With(v).Has(w) iff w equals v or s.Has(w); s.Without(v).Has(w) iff w does not equal v and s.Has(w); neither call panics, and the element found for w in s.With(v) is v itself when w equals v and the element s already held otherwise.", "quantifier": "every element type with a lawful equality and a compatible 64-bit hash (any collision pattern), every set reachable by any history, every v and w, every build tag (branch fan-out)", "why_tests_cant": "The behaviour depends on the hash of every element at every trie level, including full 64-bit collisions; tests only sample a few hash patterns.", "anchors": ["set.go:Set.Has,With,Without", "internal/pkg/tree/tree.go:Tree.With,Without,Get", "internal/pkg/tree/branch.go", "internal/pkg/tree/leaf1.go", "internal/pkg/tree/leaf2.go", "internal/pkg/tree/twig.go"]}
{"id": "C02", "title": "Set algebra membership", "statement": "Union, Intersection, Difference and SymmetricDifference of any two sets contain exactly the elements that the mathematical operation says (v in Union iff v in s or v in t, etc.). For elements held by both operands, Union returns t's representative.", "quantifier": "every pair of reachable sets, every probe value, every hash function (for Union and SymmetricDifference: whenever they return), every goroutine schedule", "why_tests_cant": "Structural recursion over two tries of arbitrary, different shapes; the case matrix leaf1/leaf2/twig/branch at 22 levels cannot be enumerated.", "anchors": ["set.go:Set.Union,Intersection,Difference,SymmetricDifference", "internal/pkg/tree/branch.go:Combine,Difference,Intersection", "internal/pkg/tree/twig.go:Combine"]}
{"id": "C03", "title": "Count is the number of distinct elements", "statement": "After any history of operations, Count() is the number of pairwise unequal elements the set has, equals len(Elements()), and IsEmpty() holds iff no value is a member.", "quantifier": "every reachable set, any sequence of operations, every hash function", "why_tests_cant": "The count is maintained incrementally from 'matches' numbers summed across recursive and parallel calls; a single wrong increment anywhere only shows on the input that reaches it.", "anchors": ["internal/pkg/tree/tree.go:Tree", "set.go:Set.Count,IsEmpty"]}
{"id": "C04", "title": "Range enumerates every element exactly once", "statement": "Iterating s.Range() to exhaustion yields every element of s exactly once, Next() then reports false and keeps reporting false, and repeating the iteration yields the same sequence.", "quantifier": "every reachable set of any size and shape", "why_tests_cant": "The iterator keeps an explicit stack over a trie of arbitrary shape.", "anchors": ["internal/pkg/tree/packer_iter.go:packerIterator", "internal/pkg/iterator/slice.go", "set.go:Set.Range,Elements"]}
{"id": "C05", "title": "Set.Equal is extensional equality", "statement": "s.Equal(t) iff s and t contain the same elements, no matter how, or in which order, each of them was built. Equal is reflexive, symmetric and transitive.", "quantifier": "every pair of reachable sets, all construction histories, every hash function, every goroutine schedule", "why_tests_cant": "Equal compares trie structure, so it is right only if every operation always leaves the unique canonical trie for its contents; one non-canonical result on some input breaks it.", "anchors": ["set.go:Set.Equal,Same", "internal/pkg/tree/tree.go:Tree.Equal", "internal/pkg/tree/branch.go:Equal,Canonical"]}
{"id": "C06", "title": "IsSubsetOf is set inclusion", "statement": "s.IsSubsetOf(t) iff every element of s is an element of t.", "quantifier": "every pair of reachable sets, every hash function, every goroutine schedule", "why_tests_cant": "Same canonical-form dependence as Equal (a branch is declared not to be a subset of any leaf).", "anchors": ["set.go:Set.IsSubsetOf", "internal/pkg/tree/branch.go:SubsetOf"]}
{"id": "C07", "title": "Set.Hash depends only on the elements", "statement": "If s.Equal(t) then s.Hash(seed) == t.Hash(seed) for every seed, so that sets can be elements of sets and keys of maps.", "quantifier": "every pair of equal reachable sets, every seed", "why_tests_cant": "Iteration order differs between equal sets (leaf and twig order is insertion order); needs a proof of order independence.", "anchors": ["set.go:Set.Hash"]}
{"id": "C08", "title": "Set.Where filters", "statement": "s.Where(pred) contains exactly the elements of s satisfying pred, with the right Count, and is canonical (so Equal works on it).", "quantifier": "every reachable set, every pure predicate, every goroutine schedule", "why_tests_cant": "Any predicate, any shape: pruning a trie can require collapsing at any level.", "anchors": ["set.go:Set.Where", "internal/pkg/tree/branch.go:Where,Canonical", "internal/pkg/tree/twig.go:Where"]}
{"id": "C09", "title": "SetMap is the image", "statement": "SetMap(s, f) contains exactly the values f(e) for e in s; its Count is the number of distinct results.", "quantifier": "every reachable set, every pure f", "why_tests_cant": "Arbitrary f, including non-injective ones.", "anchors": ["set.go:SetMap", "internal/pkg/tree/tree.go:Map"]}
{"id": "C10", "title": "Reduce folds all the elements", "statement": "For an associative and commutative n-ary reducer, Reduce returns the combination of all elements and true, and returns false exactly on the empty set; Reduce2(op) equals the fold of op over the elements in any order; the reducer is never called with no arguments.", "quantifier": "every reachable set, every associative-commutative reducer, every goroutine schedule", "why_tests_cant": "Reduction tree follows the trie shape; correctness for every shape needs induction.", "anchors": ["set.go:Set.Reduce,Reduce2", "internal/pkg/tree/branch.go:Reduce"]}
{"id": "C11", "title": "Powerset is the set of all subsets", "statement": "For a set with at most 63 elements, Powerset(s) has 2^Count(s) elements and u is an element iff u is a subset of s; larger sets panic.", "quantifier": "every reachable set with n <= 63 elements, every candidate u", "why_tests_cant": "Relies on a Gray-code argument visiting 2^n masks, and on Set-valued elements being lawful keys.", "anchors": ["set.go:Powerset", "internal/pkg/iterator/bititer.go"]}
{"id": "C12", "title": "SetGroupBy partitions", "statement": "SetGroupBy(s, key) maps each k in the image of key to exactly the set of elements e of s with key(e) equal to k, and has no other key.", "quantifier": "every reachable set, every pure key function", "why_tests_cant": "Interaction of a map builder holding mutable set builders, for all inputs.", "anchors": ["set.go:SetGroupBy"]}
{"id": "C13", "title": "Ordered iteration", "statement": "For any strict weak order less, OrderedRange/OrderedElements yields every element exactly once in non-descending order; OrderedFirstN(n) yields the n least elements (all of them if n >= Count) in order; First returns a minimum; FirstN is the set of these.", "quantifier": "every reachable set, every strict weak order, every n >= 0", "why_tests_cant": "A bounded max-heap followed by a heapify under the reversed order; correctness over all inputs is a heap invariant.", "anchors": ["internal/pkg/tree/tree.go:OrderedIterator", "internal/pkg/tree/packer_iter.go:ordered,reverseOrdered", "set.go:OrderedElements,OrderedFirstN,First,FirstN,OrderedRange"]}
{"id": "C14", "title": "Any and AnyN", "statement": "Any returns a member of a nonempty set and panics on an empty one. AnyN(n) returns a subset of s with exactly min(n, Count) elements for n >= 0.", "quantifier": "every reachable set, every n", "why_tests_cant": "Quantifies over all sets and n.", "anchors": ["set.go:Any,AnyN"]}
{"id": "C15", "title": "N-ary Union and Intersection", "statement": "Union(s1..sn) contains exactly the values in some si (empty for n = 0); Intersection(s1..sn), n >= 1, contains exactly the values in all si and panics for n = 0.", "quantifier": "every list of reachable sets (for Union: whenever it returns)", "why_tests_cant": "Arbitrary number of operands.", "anchors": ["set_ops.go:Intersection,Union"]}
{"id": "C16", "title": "SetBuilder refines a mutable set", "statement": "After any sequence of Add, Remove, Has, Count and Finish on a SetBuilder, Has and Count answer as for a mutable mathematical set, and Finish returns a set with exactly these elements, equal (in the sense of Equal) to the same set built any other way, and leaves the builder empty. NewSet(vs...) has exactly the elements vs.", "quantifier": "every finite operation sequence, every hash function", "why_tests_cant": "Builder operations mutate nodes in place and Remove has its own collapsing code; correctness is a history property.", "anchors": ["set_builder.go", "internal/pkg/tree/builder.go", "internal/pkg/tree/branch.go:Add,AddFast,Remove"]}
{"id": "C17", "title": "Finished sets and maps are isolated from their builder", "statement": "No operation on a builder, before or after Finish, changes any Set or Map previously returned by that or any other builder. Every builder, and the set made of it, holds what it would hold if trees were values, even in programs whose set operations overwrite other sets (C18).", "quantifier": "every program over any number of sets and builders", "why_tests_cant": "In-place mutation with structural sharing: a frame property over every heap and history.", "anchors": ["internal/pkg/tree/builder.go", "internal/pkg/tree/branch.go:Add,Remove", "internal/pkg/tree/twig.go:Add,Remove"]}
{"id": "C18", "title": "Persistence: no operation changes an existing Set", "statement": "Set operations never change the contents (Has, Count, Elements, Equal) of any previously existing Set value.", "quantifier": "every program over any number of sets, every hash function, every growth policy of append", "why_tests_cant": "A history and aliasing property: it must hold for every interleaving of operations on values that share structure.", "anchors": ["internal/pkg/tree/twig.go:With,WithFast,Without,Remove", "internal/pkg/tree/branch.go", "internal/pkg/tree/packer.go:WithChild"]}
{"id": "C19", "title": "Union never panics", "statement": "Set.Union (and Map.Merge / Map.Update, which share its code) terminates normally for all operands.", "quantifier": "every pair of reachable sets or maps, every hash function", "why_tests_cant": "Depends on three or more elements sharing all 64 hash bits, which ordinary tests never produce.", "anchors": ["internal/pkg/tree/twig.go:Combine", "internal/pkg/tree/leaf1.go:Combine", "internal/pkg/tree/leaf2.go:Combine"]}
{"id": "C20", "title": "Results do not depend on goroutine scheduling", "statement": "Operations that fan out over goroutines (Union, Intersection, Where, Equal, IsSubsetOf, Reduce, Merge, Update) return the same result, of the same shape, for every schedule, every GOMAXPROCS and every FROZEN_CONCURRENCY setting, including lost updates on the racy child mask.", "quantifier": "every interleaving of the worker goroutines, every gauge", "why_tests_cant": "Schedules are not controllable in unit tests, and parallelism only starts at tens of thousands of elements.", "anchors": ["internal/pkg/depth/gauge.go:Gauge.Parallel,NewGauge", "internal/pkg/tree/branch.go:Combine"]}
{"id": "C21", "title": "Map Get/With/Without laws", "statement": "m.With(k, v).Get(j) is (v, true) if j equals k and m.Get(j) otherwise; m.Without(k).Get(j) is not found if j equals k and m.Get(j) otherwise; Has, MustGet, GetElse and GetElseFunc agree with Get (MustGet panics exactly when the key is missing).", "quantifier": "every key and value type with lawful keys, every reachable map, all keys, any hash function", "why_tests_cant": "As for sets.", "anchors": ["map.go:Map.With,Without,Get,Has,MustGet,GetElse,GetElseFunc", "mapEntry.go"]}
{"id": "C22", "title": "Map.Merge", "statement": "m.Merge(n, resolve).Get(k) is resolve(k, a, b) when both maps have k (a from m, b from n, in this order), and the only value present otherwise.", "quantifier": "every pair of reachable maps, every pure resolve, every schedule; whenever Merge returns", "why_tests_cant": "Argument order is flipped inside the recursion depending on the trie shapes.", "anchors": ["map.go:Map.Merge", "internal/pkg/tree/nodeArgs.go:CombineArgs.Flip", "internal/pkg/tree/branch.go:Combine"]}
{"id": "C23", "title": "Map.Update prefers the argument", "statement": "m.Update(n).Get(k) is n.Get(k) if n has k and m.Get(k) otherwise, whichever map is larger.", "quantifier": "every pair of reachable maps; whenever Update returns", "why_tests_cant": "Operands are swapped by size and the combiner flipped; all combinations of sizes and shapes must agree.", "anchors": ["map.go:Map.Update"]}
{"id": "C24", "title": "Map.Count, Keys, Values, Range", "statement": "Range yields each key exactly once with its value; Count is the number of keys; Keys() is the set of keys; Values() is the set of values; MapToGoMap and NewMapFromGoMap round-trip.", "quantifier": "every reachable map, any history", "why_tests_cant": "As for sets.", "anchors": ["map.go:Map.Range,Keys,Values,Count,MapToGoMap,NewMapFromGoMap,NewMapFromKeys"]}
{"id": "C25", "title": "Map.Where, MapMap, Project, NewMapFromKeys", "statement": "Where keeps exactly the entries satisfying the predicate; MapMap keeps the keys and replaces each value by f(key, value); Project(ks) restricts to ks; NewMapFromKeys(s, f) has exactly the keys of s with values f(key).", "quantifier": "every reachable map, every pure function argument, every list of keys", "why_tests_cant": "As for sets.", "anchors": ["map.go:Map.Where,MapMap,Project,NewMapFromKeys"]}
{"id": "C26", "title": "Map.Equal is extensional", "statement": "m.Equal(n) iff m and n have the same keys with equal values, irrespective of construction history.", "quantifier": "every pair of reachable maps", "why_tests_cant": "Depends on canonicity after every operation.", "anchors": ["map.go:Map.Equal,Same"]}
{"id": "C27", "title": "Map.Hash depends only on the entries", "statement": "If m.Equal(n) then m.Hash(seed) == n.Hash(seed).", "quantifier": "every pair of equal reachable maps, every seed", "why_tests_cant": "Iteration order differs between equal maps.", "anchors": ["map.go:Map.Hash"]}
{"id": "C28", "title": "MapBuilder refines a mutable map", "statement": "After any sequence of Put, Remove, Get, Has, Count, Finish the builder answers as a mutable finite map and Finish returns exactly that map and empties the builder. NewMap(kvs...) gives each key its last value.", "quantifier": "every finite operation sequence", "why_tests_cant": "History property over in-place mutation.", "anchors": ["map_builder.go", "map.go:NewMap"]}
{"id": "C29", "title": "Trie depth bound and structural invariant", "statement": "Every reachable trie has depth at most 1+63/fanoutBits below the root and passes Vet (mask agrees with children, bucket nodes hold at least three elements of one hash, tracked count equals measured count); hence lookups visit a bounded number of nodes.", "quantifier": "every reachable set or map, every hash function, every build tag", "why_tests_cant": "An invariant over all histories; Vet is compiled out by default.", "anchors": ["internal/pkg/tree/vet.go", "internal/pkg/tree/tree.go:Vet", "internal/pkg/tree/hasher.go:maxTreeDepth"]}
{"id": "C30", "title": "IntSet is a set of integers", "statement": "IntSet's Has, With, Without, Count, IsEmpty, Range, Elements, Any, Union, Intersection, Where, Map, IsSubsetOf, Equal, Hash and NewIntSet behave as the mathematical set of integers.", "quantifier": "every integer of the element type (signed or unsigned, any width), every history", "why_tests_cant": "Correctness for every integer including negative ones and cell boundaries; tests use non-negative ints.", "anchors": ["intset.go", "intset_iter.go"]}
{"id": "C31", "title": "Masker enumerates bits", "statement": "For every 16-bit mask m: iterating m.Next()/FirstIndex() enumerates exactly the set bits in ascending order; First, FirstIsIn and SubsetOf are lowest bit, membership of lowest bit and inclusion.", "quantifier": "all 65536 masks and pairs", "why_tests_cant": "Used as the loop of every trie operation.", "anchors": ["internal/pkg/masker/masker.go"]}
{"id": "C32", "title": "BitIterator operations", "statement": "For every 64-bit b and 0 <= i < 64: Has(i) tests bit i, With(i) sets exactly bit i, Without(i) clears exactly bit i, Count is the number of set bits, Next/Index enumerate the set bits in ascending order.", "quantifier": "every uint64 and every index", "why_tests_cant": "2^64 inputs; exported API without tests.", "anchors": ["bititer.go:BitIterator", "internal/pkg/iterator/bititer.go"]}
{"id": "C33", "title": "Iota and NewSetFromMask64", "statement": "Iota3(start, stop, step) is exactly {start + k*step strictly before stop} for step of either sign, empty when start == stop and step == 0, and panics otherwise for step == 0; NewSetFromMask64(m) is exactly the set of indices of one-bits of m.", "quantifier": "all start/stop/step whose loop does not overflow int; all 64-bit masks", "why_tests_cant": "Infinite families of arguments.", "anchors": ["set_extra.go"]}
{"id": "C34", "title": "Hasher consumes all hash bits", "statement": "Two hashes that agree on the child index at every trie level are equal, and the child index is always in range.", "quantifier": "all 64-bit hashes, every build tag", "why_tests_cant": "64 is not a multiple of fanoutBits = 3: the last level uses one bit.", "anchors": ["internal/pkg/tree/hasher.go"]}
{"id": "C35", "title": "lazy: membership", "statement": "For every lazy set expression over frozen sets (With, Without, Where, Map, Union, Intersection, Difference, SymmetricDifference, Powerset), Has(el), and FastHas(el) when ok, agree with the mathematical set denoted.", "quantifier": "every expression, every element, every history of previous calls", "why_tests_cant": "Memoisation makes answers history-dependent; expressions are unbounded.", "anchors": ["lazy/set_union.go", "lazy/set_diff.go", "lazy/set_intersection.go", "lazy/set_where.go", "lazy/set_powerset.go", "lazy/set_base.go"]}
{"id": "C36", "title": "lazy: Range / Freeze / EqualSet", "statement": "Range of every lazy set yields every element of the denoted set exactly once, and Freeze returns a frozen set with exactly those elements.", "quantifier": "every expression, every history of previous calls", "why_tests_cant": "As above.", "anchors": ["lazy/set_memo.go:cachingIterator", "lazy/set_base.go:Freeze"]}
{"id": "C37", "title": "lazy: Count and IsEmpty", "statement": "Count, CountUpTo(limit), FastCount, FastCountUpTo and IsEmpty agree with the denoted set (min(limit, cardinality) for the limited ones).", "quantifier": "every expression, every limit, every history of previous calls", "why_tests_cant": "Answers must not depend on whether the set has been memoised yet.", "anchors": ["lazy/set_base.go:Count,CountUpTo", "lazy/set_union.go:FastCountUpTo", "lazy/set_powerset.go"]}
{"id": "C38", "title": "lazy: Equal, EqualSet, Hash", "statement": "Equal/EqualSet hold iff the denoted sets are equal and equal lazy sets have equal hashes.", "quantifier": "every pair of expressions", "why_tests_cant": "Hash is folded in iteration order.", "anchors": ["lazy/set_base.go:Equal,Hash", "lazy/set_empty.go:Equal", "lazy/set_frozen.go:EqualSet"]}
{"id": "C39", "title": "lazy: memoisation is safe under concurrency", "statement": "Concurrent Range calls on a shared memoised set always see either the source or a complete frozen copy with the same elements; the stored set never changes contents.", "quantifier": "every interleaving of iterators", "why_tests_cant": "Schedules are not controllable.", "anchors": ["lazy/set_memo.go"]}
{"id": "C40", "title": "rel.Join is the natural join", "statement": "For relations with uniform headers, Join(s, t) contains exactly the tuples x whose projections to s's and t's headers are in s and t; Join of several relations folds this; the join with an empty relation is empty.", "quantifier": "all relations with uniform headers", "why_tests_cant": "The exhaustive test covers 3 attributes with 3 values only, and no empty operands.", "anchors": ["pkg/rel/relation.go:Join,join,CartesianProduct"]}
{"id": "C41", "title": "rel.New, Project, CartesianProduct", "statement": "New(header, rows...) contains exactly one tuple per distinct row mapping header to values; Project restricts every tuple; CartesianProduct contains exactly the updates of one tuple of each operand by the next.", "quantifier": "all headers, rows, relations (for CartesianProduct: whenever it returns)", "why_tests_cant": "Infinite domain.", "anchors": ["pkg/rel/relation.go:New,Project,CartesianProduct"]}
{"id": "C42", "title": "rel.Nest groups and Unnest inverts it", "statement": "Nest(s, {a: A}) has one tuple per distinct value of the remaining attributes, holding in a the set of A-projections of the group; with several entries each nested attribute is removed from the key; Unnest(Nest(s, {a: A}), a) equals s.", "quantifier": "all relations and attribute sets", "why_tests_cant": "Infinite domain; tests use a single nested attribute.", "anchors": ["pkg/rel/relation.go:Nest,Unnest"]}
{"id": "C43", "title": "KeyValue equality and hash agree", "statement": "KeyValue.Equal is an equivalence when key and value equality are, Same agrees with it, and equal KeyValues have equal hashes, so KeyValues are lawful set elements.", "quantifier": "all keys and values, all seeds", "why_tests_cant": "Universally quantified over element types.", "anchors": ["kv.go:KeyValue"]}
{"id": "C44", "title": "Set.Format shows every element once", "statement": "For every set and every format state, Format (and String, and SetBuilder.Format) returns and writes the elements in Range order, each rendered once: without the flag '+', '{' + elements joined by ', ' + '}', and if a width w smaller than the number of elements n is set the first w of them followed by ', ...(+k)...' with k = n - w; with %+v the letter S (M for a map) and the elements in order among structural marks.", "quantifier": "all sets, maps and builders, all format states (flags, widths, verbs), all element renderings, all fan-outs", "why_tests_cant": "Tests compare a handful of strings; the text depends on the trie's shape and on the width.", "anchors": ["set.go:Set.Format,String", "set_builder.go:SetBuilder.Format", "internal/pkg/tree/tree.go:Tree.Format", "internal/pkg/tree/branch.go:branch.Format", "internal/pkg/tree/leaf1.go", "internal/pkg/tree/leaf2.go", "internal/pkg/tree/twig.go", "internal/pkg/fu/fu.go"]}
{"id": "C45", "title": "Map, IntSet and KeyValue text", "statement": "Without %+v, Map.Format writes '(' + 'k: v' for every entry in Range order joined by ', ' + ')', IntSet.Format writes '[' + the integers in Range order joined by ', ' + ']', and KeyValue.Format writes 'k:v'; String agrees with Format.", "quantifier": "all maps, integer sets and pairs, all format states without %+v", "why_tests_cant": "Only a few strings are compared by tests.", "anchors": ["map.go:Map.Format,String", "intset.go:IntSet.Format,String", "kv.go:KeyValue.Format,String"]}
{"id": "C46", "title": "MarshalJSON encodes exactly the contents", "statement": "Set.MarshalJSON hands json.Marshal a slice that lists every element exactly once; Map.MarshalJSON hands it, for string keys, a Go map with exactly the entries of the map, and otherwise a slice with one [key, value] pair per entry.", "quantifier": "all sets and maps obtainable from the API", "why_tests_cant": "Infinite domain; tests encode a few values.", "anchors": ["set_extra.go:MarshalJSON", "map_extra.go:MarshalJSON,marshalJSONArray"]}
{"id": "C47", "title": "Equal values have the same text, and only they", "statement": "Two sets that are Equal have the same String; two sets with the same String are Equal provided no rendering is empty or contains a comma and renderings tell unequal elements apart; Equal string-keyed maps are marshalled to the same JSON object.", "quantifier": "all pairs of sets and maps, all histories", "why_tests_cant": "Which order the elements take depends on the history and the hashes.", "anchors": ["set.go:Set.String", "map_extra.go:MarshalJSON", "internal/pkg/tree/leaf2.go:leaf2"]}
{"id": "C48", "title": "BitIterator.String shows the bits", "statement": "BitIterator.String returns for every 64-bit mask (BrailleEncoded ends after at most eight steps); its k-th character shows bits 8k to 8k+7 as the dots of a Braille pattern (left column from top to bottom, then the right one) or is '~' if all are 0, and it ends with the last bit that is set, so different masks have different texts.", "quantifier": "all 64-bit masks", "why_tests_cant": "2^64 masks.", "anchors": ["bititer.go:BitIterator.String", "internal/pkg/fu/braille.go:BrailleEncoded"]}
{"id": "C49", "title": "Nested containers are lawful elements", "statement": "On values nested to any depth in which sets, maps and key-value pairs hold basic values and further containers, of mixed dynamic types behind any, value.Equal returns and is an equivalence, equal values have equal 64-bit hashes, the answer is the same at the static type and through any, containers are equal iff they have the same type and the same contents, and every set, map or pair the API builds from such values is such a value again.", "quantifier": "all such values, all nesting depths, all hash functions of basic types, all histories of the containers", "why_tests_cant": "The nesting depth and the mix of types are unbounded.", "anchors": ["internal/pkg/value/value.go:Equal", "set.go:Set.Same,Equal,Hash", "map.go:Map.Same,Equal,Hash", "kv.go:KeyValue.Same,Equal,Hash"]}
{"id": "C50", "title": "EqualFuncFor agrees with Equal", "statement": "For every type T, value.EqualFuncFor[T]() returns a function that gives the same answers as value.Equal[T].", "quantifier": "all types T and values of T", "why_tests_cant": "The choice of the function is made from the zero value of T and must be right for all values.", "anchors": ["internal/pkg/value/value.go:EqualFuncFor,equalEqualer,equalSamer,equalComparable"]}
{"id": "C51", "title": "Iterators do not interfere", "statement": "Any number of iterators over sets can be used alternately, also several over one set: each Next answers whether its own iterator has another element and each Value gives the element after the iterator's last successful Next and panics before the first and after the last, whatever is called on other iterators in between and whatever the capacity of the shared buffer is.", "quantifier": "all programs of Range, Next and Value calls over all sets obtainable from the API, all buffer growth policies", "why_tests_cant": "Nested iterators share one buffer whose size is guessed from the count; tests use one iterator at a time.", "anchors": ["internal/pkg/tree/packer_iter.go:newPackerIterator,Next,Value", "internal/pkg/tree/tree.go:packedIteratorBuf,Tree.Iterator", "internal/pkg/tree/packer.go:Iterator", "set.go:Set.Range"]}
{"id": "C52", "title": "Sets may be used by several goroutines at once", "statement": "Goroutines that start with the same sets may use them at the same time without synchronisation, each making sets of its own and using builders of its own: no operation assigns to memory that existed when its goroutine started (in particular not to memory reachable from a shared set), so that there is no data race, and in every interleaving every goroutine finishes with the same sets and the same answers as if it had run alone.", "quantifier": "all programs that lead to the shared sets, all numbers of goroutines and programs of With, Without, Union, Intersection, Difference, Where, Get and builder calls, all interleavings of their accesses to memory, all growth policies of append", "why_tests_cant": "A race shows only under some interleavings, and only for elements with colliding hashes; the tests use sets from one goroutine.", "anchors": ["set.go:Set.With,Without,Union,Intersection,Difference,Where,Has", "internal/pkg/tree/twig.go:twig.With,twig.Combine,twig.Without", "internal/pkg/tree/branch.go:branch.With,branch.Add,branch.Combine", "internal/pkg/tree/tree.go:Tree", "internal/pkg/tree/builder.go:Builder"]}
{"id": "C53", "title": "Point updates copy one path and share the rest", "statement": "With, Without, and a builder's Add and Remove allocate a number of nodes and bucket arrays that is bounded by a constant which depends only on the trie's width (a path through the trie), not on the number of elements; every node and array of the result of With or Without that is not newly allocated is one of the receiver's; Without of an element that is not there returns the receiver and allocates nothing; and a lookup visits at most one node per level of the trie.", "quantifier": "all sets and builders that programs of set and builder calls reach, all elements (also with equal hashes), all growth policies of append", "why_tests_cant": "Tests compare results as values; a result that copies too much or reads too many nodes has the same elements, and allocation bounds hold for all sizes or not at all.", "anchors": ["set.go:Set.With,Without,Has", "internal/pkg/tree/tree.go:Tree.With,Tree.Without,Tree.Get", "internal/pkg/tree/builder.go:Builder.Add,Builder.Remove", "internal/pkg/tree/branch.go:branch.With,branch.Without,branch.Add,branch.Remove,branch.Get", "internal/pkg/tree/leaf1.go:leaf1.With,leaf1.Without", "internal/pkg/tree/leaf2.go:leaf2.With,leaf2.Without", "internal/pkg/tree/twig.go:twig.With,twig.Without"]}
{"id": "C54", "title": "Reduce changes no set", "statement": "Reduce and Reduce2 of a set give the result the callback gives on the set's elements, and after the call every set has the elements it had before, whatever the callback does with the slice of arguments it is given.", "quantifier": "all sets that programs of set and builder calls reach (sharing memory in any way), all callbacks, including those that assign to, sort or append to their variadic arguments, all growth policies of append", "why_tests_cant": "The callback receives the trie's own leaf and bucket arrays, so damage depends on what the callback does, on which sets share a leaf or an array, and on its capacity; the project's tests use callbacks that only read.", "anchors": ["set.go:Set.Reduce,Set.Reduce2", "internal/pkg/tree/tree.go:Tree.Reduce", "internal/pkg/tree/leaf1.go:leaf1.Reduce", "internal/pkg/tree/leaf2.go:leaf2.Reduce", "internal/pkg/tree/twig.go:twig.Reduce", "internal/pkg/tree/branch.go:branch.Reduce"]}
{"id": "C55", "title": "Callbacks are asked once per element", "statement": "Where, SetMap, SetGroupBy, NewMapFromKeys, Map.Where, MapMap, IntSet.Where and IntSet.Map call their callback exactly once for every element (entry), the loops over Range in its order; Merge calls it exactly once for every key the two maps share, with the key as the receiver holds it, the receiver's value first; Reduce and Reduce2 pass every element and every intermediate answer to it exactly once. The result is the one for a pure function that gives the answers given in the calls, so a callback with state (a counter, a log, a cache) sees no extra, missing or repeated calls, and whether Merge panics does not depend on the answers.", "quantifier": "all sets and maps the API reaches (also with equal hashes), all IntSets of integers that are not negative or multiples of 64, all callbacks with any state, whether or not their answers depend on it; calls made one after the other", "why_tests_cant": "A repeated or reordered call is invisible with the pure callbacks tests use; which leaf of which shape makes the call depends on the hashes.", "anchors": ["set.go:Set.Where,SetMap,Set.Reduce,Set.Reduce2,SetGroupBy", "map.go:NewMapFromKeys,Map.Where,MapMap,Map.Merge", "intset.go:IntSet.Where,IntSet.Map", "internal/pkg/tree/branch.go:branch.Where,branch.Combine,branch.Reduce", "internal/pkg/tree/leaf1.go:leaf1.Where,leaf1.Combine,leaf1.Reduce,leaf1.With", "internal/pkg/tree/leaf2.go:leaf2.Where,leaf2.Combine,leaf2.Reduce,leaf2.With", "internal/pkg/tree/twig.go:twig.Where,twig.Combine,twig.Reduce,twig.With"]}
{"id": "C56", "title": "Vetting changes no result", "statement": "With the checks of vetctl.Vetting switched on, Combine, Difference, Intersection, Where, With, Without and Map of trees and Add and Remove of builders return or panic exactly as with the checks off, for every tree and builder that the API reaches; if an operand, or the builder before or after the call, fails Vet they panic. The copy a builder takes for reruns has the builder's content, lies in memory of its own, and keeps its content while the builder goes on working in place.", "quantifier": "all sets, maps and builders the API reaches, all element types, hashes and arguments; for the copy all programs of builder and set calls and all growth policies of append", "why_tests_cant": "Vetting is a compile-time constant that is off, so the tests never run the checks or the copies.", "anchors": ["internal/pkg/tree/vet.go:vet", "internal/pkg/tree/tree.go:Tree.Combine,Tree.Difference,Tree.Intersection,Tree.Where,Tree.With,Tree.Without,Map,Tree.Vet,Tree.clone", "internal/pkg/tree/builder.go:Builder.add,Builder.Add,Builder.Remove,Builder.clone", "internal/pkg/tree/leaf1.go:leaf1.clone", "internal/pkg/tree/leaf2.go:leaf2.clone", "internal/pkg/tree/twig.go:twig.clone", "internal/pkg/tree/branch.go:branch.clone"]}
{"id": "C57", "title": "The Map method of nodes gives the images", "statement": "Map of the nodes (an interface method that nothing calls) returns a trie of exactly the images of the elements under f, with the number of different images, which passes Vet and is Equal to what SetMap returns; equal images are resolved by args.f.", "quantifier": "all sets the API reaches, all functions, all resolving functions that keep the key, all schedules of the goroutines", "why_tests_cant": "No test reaches the method, and the children's tries are merged from the root for every combination of shapes.", "anchors": ["internal/pkg/tree/leaf1.go:leaf1.Map", "internal/pkg/tree/leaf2.go:leaf2.Map", "internal/pkg/tree/twig.go:twig.Map", "internal/pkg/tree/branch.go:branch.Map", "internal/pkg/tree/packer.go:packer.GetChild"]}
{"id": "C58", "title": "Few calls of hash and equality", "statement": "Has, Get and Without hash their argument once (never for an empty set) and compare it with at most two elements, or with those that share its 64-bit hash; no element is compared twice and the search stops at the first match. Without, Remove, and With and Add of an element that is present make exactly the calls that Has makes; With and Add of a new element make them first and then hash at most three elements per level of the trie. Intersection hashes at most as many elements as the smaller set has; Difference and IsSubsetOf at most one per element of the receiver, and a bounded number per element of the argument; Equal never hashes and compares nothing if the counts differ; Union and Update make at most as many insertions as the smaller operand has elements, NewSet at most one per argument. If at most B elements share a hash, comparisons are at most B times that.", "quantifier": "all sets, maps and builders the API reaches, all element types, equalities and hashes (B is the size of the largest group of equal hashes), all schedules", "why_tests_cant": "Results do not show how often elements were hashed or compared, and benchmarks measure time for a few sizes with good hashes.", "anchors": ["internal/pkg/tree/leaf1.go:leaf1.Get,leaf1.With,leaf1.Without", "internal/pkg/tree/leaf2.go:leaf2.Get,leaf2.With,leaf2.Without,leaf2.Combine", "internal/pkg/tree/twig.go:twig.Get,twig.Without,twig.Difference,twig.Equal", "internal/pkg/tree/branch.go:branch.Get,branch.With,branch.Combine,branch.Difference,branch.Intersection,branch.SubsetOf,branch.Equal,newBranchFrom", "internal/pkg/tree/tree.go:Tree.Get,Tree.Intersection,Tree.Equal", "internal/pkg/tree/hasher.go:newHasher", "set.go:Set.Has", "map.go:Map.Update"]}
{"id": "C59", "title": "What Vet checks", "statement": "Vet panics or returns for every tree Go can build, and returns for exactly those whose count is the number of elements below the root, whose branches each have the mask of their children, and whose buckets have at least three elements, all with one hash. All sets, maps and builders the API reaches are among them. It does not notice elements in a place where Has cannot find them, equal elements in one leaf, or branches with fewer than three elements.", "quantifier": "all trees with arrays of fanout children and at most the model's bound of levels, all element types, equalities and hashes", "why_tests_cant": "The tests call Vet on trees the API builds, where it never panics; what it would accept shows only on trees the API cannot build.", "anchors": ["internal/pkg/tree/tree.go:Tree.Vet", "internal/pkg/tree/branch.go:branch.Vet", "internal/pkg/tree/twig.go:twig.Vet", "internal/pkg/tree/leaf1.go:leaf1.Vet", "internal/pkg/tree/leaf2.go:leaf2.Vet", "internal/pkg/tree/vet.go:vet"]}
{"id": "C60", "title": "Text of a hasher", "statement": "String of a hasher returns # and one Braille character for each two octal digits, the first digit in the left column, until the rest of the word is zero; different hashers have different texts.", "quantifier": "all 64-bit words, all builds", "why_tests_cant": "No test prints a hasher; 2^64 words cannot be compared in pairs; and the tests run in the default build only.", "anchors": ["internal/pkg/tree/hasher.go:hasher.String,hasher.hash,hasher.next", "internal/pkg/depth/fanout4.go:FanoutBits", "internal/pkg/masker/masker.go:Masker.String"]}
{"id": "C61", "title": "Operations on whole sets allocate in proportion to the smaller set and share the rest", "statement": "Union (and Merge, Update: Combine on trees), Difference and Intersection of two sets, where no three different elements share a 64-bit hash, allocate a number of nodes and bucket arrays bounded by the number of elements of the smaller set times a constant that depends only on the trie's width; Where allocates in proportion to the set, whatever the hashes; every node and array of a result is newly allocated or one of the operands' own; and Where with a predicate that is true of every element returns the receiver itself and allocates nothing (unless there are buckets).", "quantifier": "all sets that programs of set and builder calls reach, all operands in either order, all predicates and all functions that resolve conflicts, all growth policies of append, all orders in which the goroutines of Parallel finish", "why_tests_cant": "Tests compare results as values. A union that copies the larger operand, or a filter that rebuilds a trie nothing was removed from, has the same elements; a bound by the smaller operand is a statement about all pairs of sizes.", "anchors": ["set.go:Set.Union,Intersection,Difference,Where", "internal/pkg/tree/tree.go:Tree.Combine,Tree.Difference,Tree.Intersection,Tree.Where", "internal/pkg/tree/branch.go:branch.Combine,branch.Difference,branch.Intersection,branch.Where,branch.Canonical", "internal/pkg/tree/leaf1.go:leaf1.Combine,leaf1.Difference,leaf1.Intersection", "internal/pkg/tree/leaf2.go:leaf2.Combine,leaf2.Difference,leaf2.Intersection,leaf2.Where", "internal/pkg/tree/twig.go:twig.Where"]}
{"id": "C62", "title": "What the helpers of the project's tests accept", "statement": "test.ElementsMatch accepts two slices or arrays exactly if one is a permutation of the other up to reflect.DeepEqual, two strings exactly if they have the same bytes, and two maps exactly if they have the same keys with equal values; tree.EqualPacker accepts the children of two branches exactly if they hold the same elements. (False of strings and maps: the comparison that sorts the bytes mixes the two strings, and the keys of the maps are compared by address.)", "quantifier": "all slices, all orders in which the run time iterates over a map of indices, all equalities that are symmetric and transitive; all strings of at most 12 bytes; all maps whose keys are not held as pointers; all valid branches", "why_tests_cant": "These functions decide what the tests accept; a helper that accepts too much hides bugs in what it is used for, and one that accepts too little on inputs no test uses is not noticed. The order of iteration over a Go map is random.", "anchors": ["internal/pkg/test/util.go:sameElements,deref,mapOf", "internal/pkg/test/testy.go:ElementsMatch", "internal/pkg/tree/packer.go:EqualPacker"]}
{"id": "C63", "title": "How often Replayable runs a test", "statement": "Replayable runs a test once if replaying is disabled or the test never replays, and at most twice otherwise: the second run meets the marker the first one replayed to, and only there IsTarget is true; markers set at different places are different. (False of a test that replays to the marker at which it fails whenever it fails there, as branch_test.go does: it never ends. And the place is always that of Replayer.Mark, so markers are told apart by their arguments only.)", "quantifier": "all test functions, as trees of what they do with each answer of IsTarget; all equalities of marker keys", "why_tests_cant": "The helper only runs when a test fails, which no test of the project provokes; that a loop does not end is not something a test can observe.", "anchors": ["internal/pkg/test/replayable.go:Replayable,Replayer.Mark,Replayer.ReplayTo,Marker.IsTarget"]}
{"id": "C64", "title": "The shape of a trie depends on its elements only", "statement": "Two sets are equal if and only if their tries have the same shape: branches with the same masks at the same places, leaves of the same kinds with equal elements in them, where only the order inside a leaf may differ. So however a set was made (one With at a time, at once, by set operations, by a builder that also removed), it takes the same number of nodes and levels, and Range visits equal sets leaf by leaf in the same order; where no three elements share a 64-bit hash, an element is at most one place off. Tries of maps with the same keys have the same shape, whatever their values.", "quantifier": "all pairs of sets (maps, builders) that programs reach, all hash functions and equalities that agree", "why_tests_cant": "Tests compare a few histories that lead to the same elements, and only by Equal, which a trie that was not collapsed after removals could also satisfy; that no history leaves a trace in the shape is a statement about all of them.", "anchors": ["internal/pkg/tree/branch.go:branch.Canonical,branch.Without,branch.Remove,branch.Where,branch.Difference,branch.Intersection,newBranchFrom", "internal/pkg/tree/leaf1.go:leaf1", "internal/pkg/tree/leaf2.go:leaf2", "internal/pkg/tree/twig.go:twig", "set.go:Set.Equal,Set.Range"]}
{"id": "C65", "title": "The laws of set algebra", "statement": "An expression built from sets with Union, Intersection, Difference, SymmetricDifference and Where returns, unless it panics, the set of the values its meaning as a Boolean expression selects. Two expressions that agree as Boolean expressions therefore give sets that Equal reports equal, for all sets (commutative, associative, distributive and absorption laws, De Morgan's laws and so on, decided by a truth table), and an implication gives IsSubsetOf; no other identity holds for all sets. Equal operands give equal results, and a panic with one is a panic with the other. Update is associative, is Merge with the second value, and its keys are the union of the keys; Merge with a resolver that is associative is associative, and merging the other way round with swapped arguments gives an equal map.", "quantifier": "all expressions of any size, all sets and maps that programs reach, all predicates that do not tell equal values apart, all hash functions and equalities that agree", "why_tests_cant": "The tests check single operations on chosen sets; expressions nest without bound, and a law is a statement about all of them. That nothing but the Boolean laws holds, and that Equal operands can be exchanged in any expression, panics included, is out of reach of examples.", "anchors": ["set.go:Set.Union,Set.Intersection,Set.Difference,Set.SymmetricDifference,Set.Where,Set.Equal,Set.IsSubsetOf", "map.go:Map.Update,Map.Merge,Map.Keys,Map.Equal"]}
{"id": "C66", "title": "Assertions mark a test as failed exactly when they do not hold", "statement": "An assertion of internal/pkg/test whose condition holds answers true and leaves the test alone; one whose condition does not hold logs one line, its own text and then the caller's, marks the test as failed, and answers false, or ends the test if it is one of the Require functions. A test made of such assertions, where each may depend on the answers before it, is marked exactly if an assertion that is reached does not hold. Panic accepts exactly the functions that panic and NoPanic those that return; FailNow ends the test.", "quantifier": "all test functions made of assertions on conditions, all conditions, messages and states of the test, all functions under test however they end (return, panic with any value, end the goroutine)", "why_tests_cant": "The helpers are what tests rely on, and nothing tests them: a helper that reports success by mistake makes tests pass. The cases that matter are failures, messages that are not strings and panics with nil, none of which occur in a run that passes.", "anchors": ["internal/pkg/test/testy.go:Fail,FailNow,ElementsMatch,Empty,Equal,False,NoError,NotEqual,NoPanic,Panic,True", "internal/pkg/test/require.go:RequireElementsMatch,RequireEmpty,RequireEqual,RequireFalse,RequireNoError,RequireNotEqual,RequireNoPanic,RequirePanic,RequireTrue", "internal/pkg/test/util.go:assert,require,check,fail,failNow,failX"]}
{"id": "C67", "title": "Programs cannot tell the sets and maps from mathematical ones", "statement": "Take any program that makes sets and maps with the API (NewSet, builders, With, Without, Union, Intersection, Difference, SymmetricDifference, Where, SetMap, Keys; NewMap, map builders, With, Without, Update, Merge, Project, Where, MapMap, NewMapFromKeys) and asks them questions (Has, Count, IsEmpty, Equal, IsSubsetOf, Elements; Get, Has, Count, IsEmpty, Equal, Range), where each step may depend on all the answers so far. Its run either panics, and then there are elements with the clash of hashes of C19, or ends with a result that the same program can have when sets are predicates and maps are partial functions. It always ends so if no three unequal elements share a hash. A program that does not ask for the elements in their order has only one such result: it does not depend on the branch factor of the build, on the number of processors and the order in which goroutines finish, or on the hash function.", "quantifier": "all programs of any length whose steps depend on earlier answers, all valid keys, all environments (build tags, concurrency limits, schedules), all hash functions that agree with the equality", "why_tests_cant": "The tests of the project compare results with Go maps and slices along fixed sequences, mostly of one kind of call. Here calls are mixed freely, the program adapts to what it sees, and two builds with different hash functions are compared: no test suite enumerates adaptive programs, and one test binary has one build and one hash function.", "anchors": ["set.go:Set", "set_builder.go:SetBuilder", "map.go:Map,NewMapFromKeys,MapMap", "map_builder.go:MapBuilder", "internal/pkg/depth/gauge.go:Gauge.Parallel"]}
{"id": "C68", "title": "Which of several equal elements or keys is kept", "statement": "value.Equal may call values equal that a program can tell apart, such as pointers to equal structs, and a set or map keeps one of them. NewSet keeps the last of several equal arguments; NewMap keeps the last entry, with its key, and Project the last of several equal keys it is given. SetMap and Values keep the image or value that comes last in the order of iteration. Update keeps the argument's keys, Merge the receiver's. Intersection keeps the element of the set with fewer elements, or of the receiver if they have equally many.", "quantifier": "all reachable sets and maps, all argument lists, all valid keys whose equality is not identity, all environments (build tags, concurrency limits, schedules)", "why_tests_cant": "The tests mostly use ints and strings, whose equal values cannot be told apart, and their assertions compare by equality, so none can see which value is kept. For Intersection the answer changes with the shapes of both tries along the path to the element, that is with the hashes of the other elements, which tests do not control.", "anchors": ["set.go:NewSet,SetMap,Set.Intersection", "map.go:NewMap,Map.Update,Map.Merge,Map.Project,Map.Values", "internal/pkg/tree/tree.go:Tree.Intersection,Tree.Map", "internal/pkg/tree/branch.go:branch.Intersection", "internal/pkg/tree/leaf1.go:leaf1.Intersection", "internal/pkg/tree/leaf2.go:leaf2.Intersection"]}
{"id": "C69", "title": "Answers and running iterators in shared memory", "statement": "Sets made from one another share memory, builders write to theirs in place, and an iterator reads the nodes when Next and Value are called. Still a program cannot tell: Has, Get, Count, Equal and IsSubsetOf write nothing and answer, at any time and for every set made so far, as if sets were values that never change; and any number of iterators, advanced in any order, yield what their sets held, whatever sets are made and builders changed in between. In particular a loop over a set visits the elements it had when the loop began, each once, whatever its body does.", "quantifier": "all programs that make sets and builders, ask questions of them, range over them, and go on depending on the answers; all growth policies of append; all environments", "why_tests_cant": "The tests finish each iteration before they make the next set, and no test asks a set again after others have been made from it in the middle of a loop. The interleavings of Next with other operations are unbounded, and what can go wrong depends on which arrays share spare capacity, that is on hash collisions.", "anchors": ["set.go:Set.Range,Set.Has,Set.Equal,Set.IsSubsetOf", "map.go:Map.Range,Map.Get,Map.Equal", "internal/pkg/tree/packer_iter.go:packerIterator.Next,packerIterator.Value", "internal/pkg/iterator/slice.go:SliceIterator.Next,SliceIterator.Value", "internal/pkg/tree/leaf2.go:leaf2.Iterator", "internal/pkg/tree/twig.go:twig.Iterator,twig.With", "internal/pkg/tree/branch.go:branch.Iterator,branch.Equal,branch.SubsetOf", "internal/pkg/tree/tree.go:Tree.Equal,Tree.SubsetOf,Tree.Iterator"]}
{"id": "C70", "title": "Goroutines: few, only for large sets, and none left behind for ever", "statement": "A bulk operation starts goroutines only if the set or map it is called on is large: by default from 2^17 elements on (2^16 in the build with fan-out 4), and never if FROZEN_CONCURRENCY is \"off\" in any case of letters. Whatever the setting and the sizes, one operation starts at most 2 * fan-out goroutines per core, and the number of levels at which it does is the smallest that gives every core a goroutine. Every goroutine ends, also those still running when Equal or IsSubsetOf has already returned false: none waits for ever on the outcome channel, and none panics after the caller has its answer. Difference starts none.", "quantifier": "all reachable sets and maps, all limits (values of the variable, numbers of cores, sizes), all interleavings of the goroutines up to the end of the last", "why_tests_cant": "A leaked goroutine fails no test: the caller has returned. Whether one leaks depends on the capacity of the channel and on how many workers are still to report when the first answers false, and sets large enough to start goroutines at all are not tested under chosen schedules.", "anchors": ["internal/pkg/depth/gauge.go:maxConcurrency,maxDepth,NonParallel,NewGauge,Gauge.Parallel", "internal/pkg/tree/branch.go:branch.Equal,branch.SubsetOf,branch.Combine,branch.Intersection,branch.Difference,branch.Where,branch.Reduce", "set.go:Set.Difference"]}
{"id": "C71", "title": "No data races between the goroutines of one operation", "statement": "The goroutines that a bulk operation starts share the branch (or array of results) that they fill and the operation's arguments. Whenever one of them is about to assign to a shared variable, no other goroutine, the caller included, is about to access it: each goroutine writes to its own slot, and the caller reads the slots only after all goroutines have reported.", "quantifier": "all reachable sets and maps, all parallelism limits, all interleavings up to the end of the last goroutine (functions given by the caller access nothing that is shared)", "why_tests_cant": "The race detector sees only the accesses of the schedule that ran, and goroutines are started only for sets of 2^17 elements and more; whether two goroutines touch the mask of one branch depends on which children the operands lack.", "anchors": ["internal/pkg/tree/branch.go:branch.Combine,branch.Difference,branch.Intersection,branch.Reduce,branch.Where,branch.Equal,branch.SubsetOf", "internal/pkg/tree/packer.go:packer.SetNonNilChild", "internal/pkg/tree/nodeArgs.go:CombineArgs.Flip", "internal/pkg/depth/gauge.go:Gauge.Parallel"]}
{"id": "C72", "title": "lazy: the Fast methods are fast", "statement": "FastIsEmpty, FastCount and FastCountUpTo answer in O(1) time, and FastHas in O(log n), or they say ok=false: the number of calls they make is bounded by the number of objects the set is made of, whatever the number of elements; they call no predicate or mapper, iterate over nothing, and leave every memo as it was.", "quantifier": "every expression, every state of the memo pointers, any other goroutines", "why_tests_cant": "Tests look at the answers, which stay right when a Fast method does the slow work; the cost shows only for expressions of a certain form and depth.", "anchors": ["lazy/set.go:FastIsEmpty,FastCount,FastCountUpTo,FastHas", "lazy/set_union.go:unionSet.FastCountUpTo,unionSet.FastHas", "lazy/set_diff.go:differenceSet.FastHas", "lazy/set_base.go", "lazy/set_memo.go"]}
{"id": "C73", "title": "lazy: a set is evaluated at most once", "statement": "A call that goes through all elements of a lazy set (iterating to the end, Count, Hash, Freeze, EqualSet, IsSubsetOf) memoises it; from then on every method, and every set made from it, uses the stored frozen set and does not look at the source expression again.", "quantifier": "every expression, every state of the memo pointers, all arguments", "why_tests_cant": "The answers are the same whether or not the set is memoised; only the number of evaluations differs, and no test counts the calls of predicates and mappers.", "anchors": ["lazy/set_memo.go:memoSet.getSet,memoSet.Range,cachingIterator.Next", "lazy/set_memo.go:memoSet.Count,memoSet.Freeze,memoSet.Hash", "lazy/set_base.go:baseSet.Freeze,baseSet.CountUpTo"]}
{"id": "C74", "title": "lazy: making a set evaluates nothing", "statement": "With, Without, Where, Map, Union, Intersection, Difference, SymmetricDifference and Powerset of lazy sets only build an expression: they call no predicate or mapper, neither the one they are given nor those of their operands, store nothing in any memo, and make a number of steps that is bounded by the number of objects the operands are made of.", "quantifier": "all operands, every predicate and mapper, every state of the memo pointers, any other goroutines", "why_tests_cant": "Tests look at the elements, which are the same if a set is evaluated early; that a function is not called, whatever it is, cannot be observed by a finite number of calls.", "anchors": ["lazy/set_base.go:With,Without,Where,Map,Union,Intersection,Difference,SymmetricDifference,Powerset", "lazy/set_frozen.go:frozenSet.Map", "lazy/set_diff.go:difference", "lazy/set_intersection.go:intersection", "lazy/set_memo.go:memo"]}
{"id": "C75", "title": "The laws of map algebra", "statement": "Expressions of Update, Merge, Where, MapMap, Project, With and Without obey the laws of finite maps: if two expressions have the same value for each key, whatever the maps they are made of have for it, the resulting maps are Equal (associative and idempotent Update, Update as a Merge, Project and MapMap distribute over Update, With and Without for different keys commute, and so on); and if they differ for some key, there are maps for which the results are not Equal.", "quantifier": "all expressions, all maps, every key type whose equality and hash agree", "why_tests_cant": "A law relates the results of several operations on several maps; there are infinitely many laws and maps, and map operations take different paths through the trie depending on sizes and shared parts.", "anchors": ["map.go:Map.Update,Map.Merge,Map.Where,MapMap,Map.Project,Map.With,Map.Without", "internal/pkg/tree/tree.go"]}
{"id": "C76", "title": "There and back", "statement": "What a set or map lists, given back to a constructor, makes an Equal set or map: NewSet of Elements or OrderedElements in any order and with repetitions; NewMap and NewMapFromGoMap of the entries; NewMapFromKeys of Keys with the map's own values. Project on all keys, Where with a predicate that is always true, and Map and MapMap with the identity also give back an Equal set or map. Maps with the same entries are Equal.", "quantifier": "all sets and maps made by any history of operations, all orders of the lists, every element, key and value type whose equality and hash agree", "why_tests_cant": "The tries made by two histories differ in the order of colliding elements and in their representatives; a test sees a few histories and orders only.", "anchors": ["set.go:NewSet,Set.Elements,Set.OrderedElements,Set.Where,SetMap", "map.go:NewMap,NewMapFromKeys,NewMapFromGoMap,Map.Keys,Map.Project,Map.Where,MapMap,Map.Equal"]}
{"id": "C77", "title": "How many elements results have", "statement": "The counts of sets made by Union, Intersection, Difference, SymmetricDifference and Where obey the laws of counting: a linear inequality between the counts of expressions holds for all sets exactly if it holds for each row of the truth table of the expressions. So |A union B| + |A intersect B| = |A| + |B|, inclusion and exclusion for any number of sets, |A xor C| <= |A xor B| + |B xor C|, and so on. A subset has at most as many elements, and as many only if it is Equal. A map has as many entries as keys, and Update counts common keys once.", "quantifier": "all weights, all expressions, all sets and maps, every element type whose equality and hash agree", "why_tests_cant": "Counts are not computed from the trie but kept in a field and updated from the matches each operation reports on each of its paths; a wrong number of matches on a rare path shows only for the trie shapes that take it.", "anchors": ["set.go:Set.Count,Set.Union,Set.Intersection,Set.Difference,Set.SymmetricDifference,Set.Where,Set.IsSubsetOf", "map.go:Map.Count,Map.Keys,Map.Update", "internal/pkg/tree/tree.go"]}
{"id": "C78", "title": "IntSet agrees with Set", "statement": "An IntSet and a Set of the same integers cannot be told apart by what they hold. Run any program of NewIntSet/NewSet, With, Without, Union, Intersection, Where and Map on both: if the Set program runs to the end, so does the IntSet program, and Has, Count, IsEmpty and Elements (up to order) have the same answers on the results. Equal and IsSubsetOf of two such pairs have the same answers too.", "quantifier": "all programs, integer types, hashes of both, orders of listing Go maps", "why_tests_cant": "The two share no code for what an element is: an IntSet keeps 64-bit cells in a map and counts bits, a Set keeps the integers. They can disagree on integers at the edges of cells, on negative ones, and on cells that become empty, for some order of operations only.", "anchors": ["intset.go:NewIntSet,IntSet.With,IntSet.Without,IntSet.Union,IntSet.Intersection,IntSet.Where,IntSet.Map,IntSet.Has,IntSet.Count,IntSet.Elements,IntSet.Equal,IntSet.IsSubsetOf", "set.go:NewSet,Set.With,Set.Without,Set.Union,Set.Intersection,Set.Where,Set.Map"]}
{"id": "C79", "title": "Keys takes programs on maps to programs on sets", "statement": "Run a program of Update, Merge, Where (with a predicate on keys), MapMap, Project, With and Without on maps, and the corresponding one on the sets of their keys: Union for Update and Merge, Where for Where, Intersection with NewSet(keys...) for Project, With and Without of the key, nothing for MapMap. Either both panic or neither does. If neither does, Keys of the resulting map is Equal to the resulting set, Count is the same, and Has has the same answers. Where with any predicate leaves some of the keys.", "quantifier": "all programs, all maps, every key type whose equality and hash agree", "why_tests_cant": "Maps and sets use the same trie with different elements and different functions to resolve equal ones, and Update swaps its operands by size, which Union does not. An entry lost or counted twice, or a clash of hashes that is handled on one side only, shows for some shapes of tries and some orders of operations only.", "anchors": ["map.go:Map.Keys,Map.Update,Map.Merge,Map.Where,MapMap,Map.Project,Map.With,Map.Without,Map.Count,Map.Has", "set.go:Set.Union,Set.Intersection,Set.Where,Set.With,Set.Without,NewSet"]}
{"id": "C80", "title": "The laws of SetMap", "statement": "For functions that take equal values to equal values: SetMap of SetMap is SetMap of the composed function; SetMap of a Union is the Union of the SetMaps; SetMap of an Intersection is a subset of the Intersection of the SetMaps, and Equal to it if the function takes unequal values to unequal values; Where on a SetMap is SetMap of a Where; SetMap keeps IsSubsetOf and Equal; its Count is at most that of the set, and the same exactly if no two elements have equal images.", "quantifier": "all sets of all element types whose equality and hash agree, all functions and predicates that respect equality", "why_tests_cant": "SetMap builds the result anew in the order of the trie and the other side of each law builds it by another route, so a lost or doubled element shows only for some coincidence of hashes and images.", "anchors": ["set.go:SetMap,Set.Union,Set.Intersection,Set.Where,Set.IsSubsetOf,Set.Equal,Set.Count", "internal/pkg/tree/tree.go:Map"]}
{"id": "C81", "title": "The laws of the functions Union and Intersection", "statement": "The results of Union(sets...) and Intersection(sets...) do not depend on the order of the operands, on repetitions, or on which of several Equal sets is given. Of one set they give that set, of two sets what the methods give. Unions of Unions are the Union of all operands. Union is the smallest set that has every operand as a subset, Intersection the largest that is a subset of every operand. Intersection with a Union is the Union of the Intersections, and Difference with a Union is the Intersection of the Differences.", "quantifier": "all lists of sets, every element type whose equality and hash agree; Union where it returns", "why_tests_cant": "The functions fold the binary operations from the left, each of which goes different ways by the sizes of its operands and the shapes of their tries, so each order of the operands takes other paths; there are too many orders and shapes to try.", "anchors": ["set_ops.go:Union,Intersection", "set.go:Set.Union,Set.Intersection,Set.Difference,Set.IsSubsetOf,Set.Equal"]}
{"id": "C82", "title": "The laws of SetGroupBy", "statement": "In the result of SetGroupBy(s, key) the group of a key k is Equal to s.Where(key(e) == k), is a subset of s, and is not empty. Keys of the result is Equal to SetMap(s, key). The Counts of the groups add up to the Count of s. Union of the groups is Equal to s.", "quantifier": "all sets, every key function, all element and key types whose equality and hash agree; Union where it returns", "why_tests_cant": "SetGroupBy fills a builder per key that it finds again through a map, and collects them in a second loop; an element put into the wrong builder, or a builder lost when its key clashes with another, shows only for some coincidence of hashes of keys and elements.", "anchors": ["set.go:SetGroupBy,SetMap,Set.Where,Set.Count,Set.Equal", "set_ops.go:Union", "map.go:Map.Keys,Map.Get"]}
