# Formal model of arr-ai/frozen in Rocq (Coq 8.16.1)

Source modelled: `/repo` (arr-ai/frozen, Go, pinned). The Go code is read as text;
it was never built or run. All Coq sources are in `rocq/theories` (logical name `Verif`).

## How to read the development

* `properties.jsonl` has the English properties C01, C02, ...
* `Spec.v` is the vocabulary in which the theorems are stated (what "a set obtained from the API" is: the inductive
  histories of `Reach.v`; what it means to be a member; counts; equivalences). `SpecX.v` files prove the statements.
* `PropX.v` are the files to audit: every theorem `CNN_...` in full, closed by the proof of the Spec lemma, followed by
  `Print Assumptions`, an example `..._case` which discharges its hypotheses on concrete data, and usually an example
  `..._run` which evaluates the model on that data. The Prop files are generated by `tools/genprops.py` from the Spec
  files (it only copies the statement and closes the section context) and `tools/examples/PropX.txt`.
* A theorem is named `..._partial` if it proves part of its property, `..._refuted` if it shows that the property, as
  worded, is false of the code. `MANIFEST.json` (from `tools/genmanifest.py` and `tools/status.json`) says what is missing.
* `seeded/LOG.jsonl` logs wrong programs tried against the theorems.

## Layers

1. **Base, bits** (`Base Bits Env EnvFacts BitFacts`) – result monad (`Ok | Panic | Fuel`), lists, fixed width words,
   `masker.Masker`, `BitIterator`, `hasher`, `depth.Gauge`.
2. **Pure trie model** (`Node Tree Iter`, facts in `NodeWf ... TreeFacts`) – `leaf1`, `leaf2`, `twig`, `branch` (with the
   `packer` mask kept as data), every `node[T]` operation, `Tree`, `Builder`, iterators (`IterBuf` adds their shared buffer, C51; `Vetting` adds the checks around the operations, C56;
   `NodeMap` the unused method Map, C57). A Go panic is the value
   `Panic`; unbounded Go recursion is recursion on fuel, with exhaustion the separate value `Fuel`, which the
   theorems rule out. `Gauge.Parallel` takes a *schedule oracle* (the order in which the goroutines complete, depending
   on the position in the trie); theorems hold for every oracle, and layer 4 justifies it.
3. **API model** (`SetApi MapApi IntSet GoHeap Ordered Rel Lazy`, ...) – `Set`, `Map`, builders, `IntSet`, ordered
   iteration over an exact model of `container/heap`, `Powerset`, `SetGroupBy`, `Iota*`, `pkg/rel`, `lazy`.
   The lazy package is a set of small-step goroutine programs over shared memo cells (`Lazy LazyRun LazyScript`); sets of
   sets, which power sets need, go through a class `Boxes` of interface values that hold sets. `LazyCost` counts the calls of the Fast methods (C72).
4. **Concurrency** (`Concurrency ConcOps ConcApi ConcRun`) – an interleaving machine for `Gauge.Parallel`: the caller,
   one goroutine per child, nested calls, the outcome channel, the shared result branch with a mask whose
   read-modify-write is two steps, early return. Every interleaving gives the outcome of layer 2 (C20).
   `Goroutines` keeps the goroutines that an early return leaves behind and counts all that are started; they all end
   (`GoOps GoRun SpecGo`, C70). `Races` lists what each goroutine is about to access and says which of them race (C71).
   `Config` computes the gauge from FROZEN_CONCURRENCY and GOMAXPROCS with `int` wrapping around.
5. **Heap model** (`HeapModel`, facts in `HeapFrame HeapOwn HeapRep HeapSim HeapSim2 HeapQuiet`, programs in `HeapProg
   HeapProgSim`) – nodes and backing arrays are addresses in a store, twigs hold slices (array, length, capacity),
   `append` writes in place when there is capacity, builders mutate nodes. Programs over any number of sets
   and builders; simulation with layer 2 (C17, C18). The heap logs every assignment to existing memory; `HeapWrite` compares the
   log with the memory of the sets. `HeapSteps` writes the operations as sequences of single accesses to memory and proves that
   they do the same when run alone; `HeapShare` interleaves the accesses of any number of goroutines that share sets (C52). `HeapAlloc` and `HeapDeep` count what the
   point updates allocate and show that branches never lie deeper than the trie is meant to be (C53); `HeapBulk` counts for the operations on whole sets (C61). `HeapReduce` runs Reduce on the heap with a callback
   that may assign and append to the arguments it is given (C54). `HeapBuilders` follows the builders alone, in programs that overwrite sets;
   `HeapClone` copies them for reruns (C56). `HeapRead` adds Equal, IsSubsetOf and iterators that keep pointers, and programs that go on
   depending on the answers; `HeapReadSim` compares them with programs on values (C69).
6. **Text** (`Text`, facts in `SpecText`) – `Format`, `String` and `MarshalJSON` of sets, builders, maps, integer sets and
   pairs, the structural `%+v` output of the nodes, Braille texts of bit masks (C44-C48).
7. **Nested values** (`Dyn`, `SpecDyn`) – `value.Equal` and `hash.Any` on a universe of dynamically typed values: basic values, and sets,
   maps and pairs of such values to any depth, so that the element types of layer 3 can be the containers themselves (C49, C50).
8. **Calls** (`Calls`, facts in `CallFacts SpecCalls`) – the operations that take a callback, in a state monad: the callback has a state of any type, and
   the trace of questions and answers is compared with the pure operation of layers 2 and 3 (C55).
9. **Cost** (`Cost`, facts in `CostFacts CostBin SpecCost`) – the operations in a writer monad that lists the calls of the elements' hash and
   equality; each ends like the operation of layers 2 and 3, with a list that is bounded (C58).
10. **Test helpers** (`TestSupport`, `SpecTest`) – what `ElementsMatch` and `EqualPacker` accept (C62) and how often `Replayable` runs a test (C63). `Asserts` (facts in `SpecAsserts`): when the assertions fail a test (C66).

## Trusted base

* Coq's kernel (with `vm_compute`, used in examples and refutations by computation), and the reading of the Go code by which
  the definitions were written; each definition cites its file and lines and states simplifications.
  The reading is checked against the project's own tests: `Upstream.v` translates them (set, map, builder, integer set, relation,
  lazy set, masker, packer and bad-hash tests, at smaller sizes) and evaluates them in the model, with 8 and with 4 children per
  branch; all pass. The Go tests were not run, and what was left out is listed at the head of the file. None of the findings
  below contradicts an assertion found in the test files.
* `Print Assumptions` follows every theorem in the Prop files and reports `Closed under the global context` for every
  one of them: no axiom is used. Loading `ssreflect`-dependent parts of the standard library brings the constants
  `Coq.ssr.ssrunder.Under_rel.*` into the environment (7 parameters of a sealed module of Coq's own distribution);
  no theorem depends on them.
* Tools that write the Prop files and the manifest are not trusted: the kernel checks the generated text.

### Abstracted, as parameters quantified in every theorem

* element type `T`, `value.Equal` (`veq`) and `hash.Any` (`vhash`): any total functions such that `veq` is
  an equivalence on the (caller-chosen) domain of values in use and equal values have equal hashes below 2^64.
  `hash.Any` is in an external module (`github.com/arr-ai/hash`), which is not in `/repo`. Sets, maps and KeyValues
  are proved to be lawful elements again (C07, C27, C43), and so are mixtures of them behind `any`, nested to any depth (C49).
* callbacks (predicates, mappers, resolvers, `less`, reducers): pure total functions.
* build tag (`branch4`, default, `branch16`), `GOMAXPROCS`, `FROZEN_CONCURRENCY`, goroutine schedule.
* growth policy of `append` in the heap model.
* the text `fmt` gives for one element (`Fmt`: any two functions, one for `%v` and one for the caller's verb and flags), and the
  JSON encoding of one value: the theorems say which values are handed to `json.Marshal`, and in which order.

### Not modelled

Memory exhaustion; `int` overflow of counts (except where a count is computed by shifting, as in the lazy power set); panics
raised by user callbacks or by comparing uncomparable dynamic types; weak memory (all interleavings are of sequentially
consistent steps); running times; of the helpers in `internal/pkg/test`, those that only compare and report.
`vet.go` is compiled out (`vetctl.Vetting = false`); the method `Vet` itself is modelled (C29).

## Per property: what is modelled and how it is proved

| id | model | proof |
|----|-------|-------|
| C01 | layers 2,3 | invariant `wf` (canonical trie) and a lookup equation by induction on fuel and depth |
| C02 | same | same, for every schedule oracle; Union for calls that return |
| C03, C29 | same | `length (elems) = count` maintained by every operation; `Vet` returns the count |
| C04 | iterator state machine | simulation with the in-order element list |
| C05, C06 | same | canonical form: wf tries with the same members have the same structure up to bucket order |
| C07, C27 | fold of xor | permutation invariance |
| C08-C12, C14, C15, C22-C26, C28 | API model | refinement to lookup functions |
| C13 | container/heap model | heap invariant, sortedness, permutation, top-n |
| C16 | builder histories | refinement by induction over the operation list |
| C17 | heap model | frame: builder commands write only to nodes no set can reach |
| C18 | heap model | refuted for every growth policy of `append`; frame and simulation for the commands and element types for which it holds |
| C19 | pure model | exact condition (`Overfull`) under which Union and Merge panic; refutation of the full claim |
| C20 | machine of layer 4 | invariant of the shared branch, termination measure, equality with the sequential outcome for every schedule |
| C30 | IntSet over Map model | refinement for unsigned types and non-negative integers; refutation for negative ones |
| C31, C32, C34 | bit lemmas | `N.testbit` reasoning; `BitIterator.Without` refuted |
| C33 | API model | induction on the loop |
| C35-C39 | lazy machine with memo cells | invariant over all schedules relating every cell to the denoted set; refutations of the broken methods |
| C40-C42 | rel model | refinement to relational algebra; refutations (`Join` with an empty right operand, Nest of several attributes) |
| C43 | kv model | direct |
| C44, C45 | text model | the text of a trie weaves the elements in iteration order into marks; refuted for `%+v` of an empty set |
| C46 | text and API model | the loops visit the elements of C04 once |
| C47 | text model | unique decomposition of comma-free pieces; refuted by buckets in insertion order |
| C48 | bits as words | the eight bytes and their bits are recovered from the text |
| C51 | iterators with buffers in a store | cells in use are in increasing order along nested iterators; arrays of different iterators are disjoint |
| C52 | accesses to memory of layer 5, interleaved | programs that, alone, assign to no memory that existed at the start end in every interleaving as if alone; ownership tags and the write log show which programs do |
| C53 | number of nodes and arrays in layer 5's heap | every node carries a level tag that all programs respect, overwritten slots or not; the recursion of With, Without, Add and Remove is bounded by the tags; sharing follows from the ownership frame of C17 |
| C54 | layer 5's heap with callbacks that write | a callback that only reads leaves the heap as it is up to new memory; any callback stays within the set's own memory by C17's ownership frame; a permuting one is a relation between heaps that keeps every tight bucket's elements |
| C55 | operations with a callback that has state | each run comes with the list of its calls; any pure function that agrees with the list gives the same result in layers 2 and 3, and the list is compared with the elements; by induction over the trie for Where, Combine and Reduce |
| C56 | the checks that vetting adds around the operations of layer 2; copies in layer 5's heap | every reachable tree passes Vet (C29), so the checks do nothing; a copy is new memory only, and the ownership frame of C17 keeps builder and copy apart |
| C57 | the unused method Map of the nodes of layer 2 | the images of the children are tries from the root; they are merged by C02's theorem about Combine, whose panics are those of C19 |
| C58 | operations that list the calls of hash and equality | by induction over the trie: each run ends like the one of layer 2 and its list is bounded by the sizes of the operands; buckets hold only elements of one hash |
| C59 | pure model | by induction over any node, reachable or not; the sum over the mask is the number of elements |
| C60 | text layer, `HasherText` | the text is read back digit by digit: the words are equal if their octal digits are; refuted for two bits per digit, where String calls itself through fmt |
| C61 | number of nodes and arrays in layer 5's heap | the pairs of children of two branches are summed over the slots: the sum of the smaller sizes is at most the smaller sum; splitting a leaf costs a path per element; sharing from the ownership frame |
| C62 | helpers of the tests, `TestSupport` | greedy matching is enough, since equality is symmetric and transitive: an element that is taken can be exchanged for any equal one; the rest by computation or counterexample |
| C63 | test functions as trees of markers and answers | the second run follows the first one up to the first marker that equals the target, after which the test does not replay; an endless test by induction on the number of runs |
| C64 | pure model | the invariant of C29 leaves no choice of shape: by induction over two valid tries with the same elements; blocks of one leaf each give the order |
| C65 | pure model, expressions `sexp` | induction over expressions with C02 and C08; truth tables decide the laws, singletons show there are no others; equal operands: the condition of C19 counts hashes only |
| C66 | assertions as commands on the state of a test, `Asserts` | by computation on how the function under test ends; tests of any length by induction |
| C67 | pure model, programs `client` | each call against its meaning (C01–C08, C16, C19, C21–C28), then induction over programs; meanings that agree on valid elements stay so, hence one result for two builds and two hash functions |
| C68 | pure model | lookups in the result against lookups in the operands; for Intersection by induction over both tries, a leaf being at most two elements under one prefix of the hash |
| C69 | heap model | simulation with values: an iterator points only into the memory of its set, which commands either keep or do not reach; a loop is an iterator that its body spares |
| C70 | machine of layer 4 with the goroutines left behind | strong normalisation by induction over programs; a worker can always send, as the channel has a place for each; the caller's part is a run of the machine of C20; arithmetic of bit lengths for the gauge |
| C71 | machine of layer 4 | each worker owns one slot of its branch; accesses below different workers are to different branches; the caller reads when all workers have ended |
| C72 | lazy methods that count their calls, `LazyCost` | by induction over expressions, for any answers of the memo pointers; the slow cases by induction over the number of With calls and by C37's theorem about counting |
| C73 | programs of lazy methods, `SpecMemo` | "never stores to this pointer" by induction over programs, for any values read; Range to the end by induction over the iteration |
| C74 | programs of lazy methods, `SpecBuild` | two runs with different predicates and mappers take the same steps; by induction over the pairs of programs |
| C75 | expressions over the map API, `SpecMapLaws` | by induction over expressions from C21-C25: the value at one key; equality of maps from C26 |
| C76 | constructors over the lists of the API model, `SpecRound` | from C04, C05, C08, C09, C13, C16 and C24-C28: both sides hold the same members or entries |
| C77 | the expressions of C65, `SpecTally` | counts as sums over a list of representatives of all values in the results; C65 gives each result's membership, so a sum of counts is a sum of rows of the truth table |
| C78 | programs over `IntSet.v` and over `SetApi.v`, `SpecIntSet` | one induction over programs keeps "the same integers are in both", from the theorems of C30 on one side and C01, C02, C08, C09, C16 on the other; for integers that fit (C30) |
| C79 | the expressions of C75 on maps and on sets, `SpecKeys` | induction keeps "the set has the keys of the map"; C19's exact condition for panics is about hashes of keys only, so it carries over between lists that are equal up to order and representatives |
| C80 | `s_map` and the set operations, `SpecImage` | C09 gives the members of an image; for functions that respect equality this is "some member has an image equal to it", from which each law follows by C05 and C06; counts by comparing lists without repetitions |
| C81 | `s_unionN`, `s_intersectionN`, `SpecNary` | C15 gives the members of the results as "in some operand" and "in all operands"; the laws follow by C05 and C06 |
| C82 | `s_groupBy`, `SpecGroups` | C12 gives the groups by key; each element has exactly one of the keys, so the Counts add up (`sum_groups`, `unequal_one`) |
| C49, C50 | universe of nested values | induction on the depth, using C07, C27 and C43 at each level; the bound on the depth is immaterial |

## Findings about the code

Each is a theorem about the model and was then checked by hand against the source.

* `twig.Combine` builds a branch, drops it and panics; Union, Merge and Update of buckets panic (C19).
* `twig.With` appends to the bucket's array in place, so sibling sets can overwrite each other's elements (C18), and a loop over one of them, already under way, sees
  the other's elements (C69).
* Union, Merge and Update of large sets have data races: on the mask of a branch of the result and on `CombineArgs.flipped` (C71); under
  sequential consistency they do no harm (C20).
* FROZEN_CONCURRENCY near the least `int` wraps around and switches parallelism off (C70).
* `IntSet` loses negative integers that are not multiples of 64, yet counts them (C30).
* `BitIterator.Without(i)` computes `(b &^ 1) << i` (C32).
* lazy: `difference.Has` is `||` instead of `&& !`; `FastHas` of unions and differences asks the first operand twice; `EmptySet.Equal`
  is true of every set; equal lazy sets can have different hashes; Count of overlapping unions depends on what was called
  before; power sets have wrong Has, IsEmpty and Count; calling Next after it answered false stores an empty copy (C35-C39). `FastHas` of a filtered set after n calls of With makes 2^n calls, and
  `FastCountUpTo` of a union with an empty set iterates over the other one (C72).
* lazy: only `Range` to the end memoises a set. `Count`, `Freeze`, `Hash`, `EqualSet` and the others go to the source expression and evaluate it
  again at each call (C73); `Map` of a frozen set maps all its elements at once (C74).
* rel: Join with an empty second relation returns the first; Join() panics; Nest of several attributes removes the
  intersection of the attribute sets from the key instead of the union (C40, C42).
* text: `%+v` of an empty set, map or builder dereferences a nil root (C44); width 0 prints `{, ...(+n)...}`; equal sets print
  their buckets in insertion order, so the text of equal sets can differ (C47); the multi-line form of
  `branch.Format` is never chosen, since it tests for room with `buf[:]`, a full slice, where `buf[:0]` was meant; and the width of
  `%+v` pads each branch by what it writes itself, not counting its children (`C44_debug_width_run`).
* Two goroutines that call With on the same set with a bucket of three or more elements of one hash assign to the same slot
  without synchronisation (C52), a consequence of the finding on C18.
* `leaf2.Reduce` and `twig.Reduce` pass their own array to the callback (`r(l.data...)`): one that accumulates in `elems[0]`
  changes the set, one that sorts or appends can change other sets (C54).
* `leaf2.Map` keeps the first of two equal images whatever `args.f` says, and `branch.Map` panics where children have three or more
  images of one hash (C57); nothing calls these methods.
* `hasher.String` in the builds branch4 and branch16 formats its receiver with `%x`, for which fmt calls String again, without end;
  `Masker.String` always panics (C60).
* `test.ElementsMatch` compares `m[i] < n[j]` when it sorts the bytes of two strings, so "ab" does not match "ba" (and it panics if the second is shorter), and
  it never matches maps that are not empty, whose keys it compares as `reflect.Value` (C62).
* `test.Replayable` runs a test without end that replays to the marker where it fails, and `Mark` records the place of
  `Replayer.Mark` instead of its caller's: `runtime.Callers(2, ...)` should skip three frames (C63).
* `test.FailNow` calls `fail` and does not end the test; `test.Panic` with a message that is not a string accepts functions that do not panic; any
  other assertion with such a message panics when it fails, as in `test.True(t, ..., i)` in intset_test.go:56 and a dozen other places;
  lazy/testutil_test.go:126 passes the answer of `EqualSet` as the message of `test.False`, so it checks nothing about the lazy set (C66).
* `value.EqualFuncFor` writes `defer recover()`, which does not recover: it panics for types without `==` (C50).
* `Intersection` keeps the smaller set's elements, except where the larger set's trie ends in a leaf sooner: then it keeps the larger
  set's (C68).
* The comment on `NewSetFromMask64` (set_extra.go:41-42) speaks of 2**i where the code adds i; the properties follow the code (C33).
